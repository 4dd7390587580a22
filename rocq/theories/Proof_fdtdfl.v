(** Rounding errors of one update of one cell. *)
From Coq Require Import Reals Lra Lia Psatz List Arith Bool FunctionalExtensionality.
From Verif Require Import Cx Arr Model_yee Spec_yee Model_fdtd Spec_fdtd Proof_adj Model_fdtdfl Spec_fdtdfl.
Import ListNotations.
Local Open Scope R_scope.

Lemma Cabs_div : forall z x, 0 < x -> Cabs (z / RtoC x)%C = Cabs z / x.
Proof.
  intros z x H. replace (z / RtoC x)%C with (z * RtoC (/ x))%C by (rewrite RtoC_inv by lra; reflexivity).
  rewrite Cabs_mul, Cabs_RtoC; [reflexivity |]. apply Rlt_le, Rinv_0_lt_compat; exact H.
Qed.
Lemma Cabs_scal : forall z x, 0 <= x -> Cabs (z * RtoC x)%C = Cabs z * x.
Proof. intros. rewrite Cabs_mul, Cabs_RtoC; auto. Qed.
Lemma split3 : forall x y z, Cabs (x - z)%C <= Cabs (x - y)%C + Cabs (y - z)%C.
Proof. intros. replace (x - z)%C with ((x - y) + (y - z))%C by ring. apply Cabs_add. Qed.
Lemma near_abs : forall x y r, Cabs (x - y)%C <= r -> Cabs x <= Cabs y + r.
Proof. intros x y r H. replace x with ((x - y) + y)%C by ring. pose proof (Cabs_add (x - y)%C y). lra. Qed.
Lemma near_refl : forall x r, 0 <= r -> Cabs (x - x)%C <= r.
Proof. intros. replace (x - x)%C with C0 by ring. rewrite Cabs_C0. exact H. Qed.

Section Cell.
Variables (ar : farith) (d u e lo hi : R).
Hypothesis Ha : farith_ok d u lo hi ar.
Hypothesis He : 0 <= e.
Let t := d + e.
Hypothesis Ht : t <= 1 / 100.
Lemma d0 : 0 <= d. Proof. apply Ha. Qed.
Lemma u0 : 0 <= u. Proof. apply Ha. Qed.
Lemma t0 : 0 <= t. Proof. pose proof d0. unfold t. lra. Qed.
Lemma add_err : forall x' x y' y al be, Cabs (x' - x)%C <= al -> Cabs (y' - y)%C <= be ->
  Cabs (fa_add ar x' y' - (x + y))%C <= t * (Cabs x + Cabs y) + 11 / 10 * (al + be) + u.
Proof.
  intros x' x y' y al be H1 H2. destruct Ha as (D & U & _ & A & _). eapply Rle_trans; [apply (split3 _ (x' + y')%C) |].
  pose proof (A x' y') as B. assert (S1 : Cabs ((x' + y') - (x + y))%C <= al + be).
  { replace ((x' + y') - (x + y))%C with ((x' - x) + (y' - y))%C by ring. eapply Rle_trans; [apply Cabs_add |]. lra. }
  pose proof (near_abs _ _ _ S1) as N. pose proof (Cabs_add x y) as T. pose proof (Cabs_nonneg x); pose proof (Cabs_nonneg y).
  assert (0 <= al + be) by (pose proof (Cabs_nonneg (x' + y' - (x + y))%C); lra).
  assert (d * Cabs (x' + y')%C <= d * (Cabs x + Cabs y + (al + be))) by (apply Rmult_le_compat_l; lra).
  assert (d * (Cabs x + Cabs y) <= t * (Cabs x + Cabs y)) by (apply Rmult_le_compat_r; unfold t; lra).
  assert (d * (al + be) <= 1 / 10 * (al + be)) by (apply Rmult_le_compat_r; unfold t in Ht; lra). lra.
Qed.
Lemma sub_err : forall x' x y' y al be, Cabs (x' - x)%C <= al -> Cabs (y' - y)%C <= be ->
  Cabs (fa_sub ar x' y' - (x - y))%C <= t * (Cabs x + Cabs y) + 11 / 10 * (al + be) + u.
Proof.
  intros x' x y' y al be H1 H2. destruct Ha as (D & U & _ & _ & A & _). eapply Rle_trans; [apply (split3 _ (x' - y')%C) |].
  pose proof (A x' y') as B. assert (S1 : Cabs ((x' - y') - (x - y))%C <= al + be).
  { replace ((x' - y') - (x - y))%C with ((x' - x) - (y' - y))%C by ring. eapply Rle_trans; [apply Cabs_sub |]. lra. }
  pose proof (near_abs _ _ _ S1) as N. pose proof (Cabs_sub x y) as T. pose proof (Cabs_nonneg x); pose proof (Cabs_nonneg y).
  assert (0 <= al + be) by (pose proof (Cabs_nonneg (x' - y' - (x - y))%C); lra).
  assert (d * Cabs (x' - y')%C <= d * (Cabs x + Cabs y + (al + be))) by (apply Rmult_le_compat_l; lra).
  assert (d * (Cabs x + Cabs y) <= t * (Cabs x + Cabs y)) by (apply Rmult_le_compat_r; unfold t; lra).
  assert (d * (al + be) <= 1 / 10 * (al + be)) by (apply Rmult_le_compat_r; unfold t in Ht; lra). lra.
Qed.
(** Exact difference of exact inputs (no cancellation loss). *)
Lemma sub_exact : forall x y, Cabs (fa_sub ar x y - (x - y))%C <= t * Cabs (x - y)%C + u.
Proof.
  intros. destruct Ha as (D & U & _ & _ & A & _). eapply Rle_trans; [apply A |]. pose proof (Cabs_nonneg (x - y)%C).
  assert (d * Cabs (x - y)%C <= t * Cabs (x - y)%C) by (apply Rmult_le_compat_r; unfold t; lra). lra.
Qed.
Lemma mul_err : forall x' x m' m al, 0 <= m -> Rabs (m' - m) <= e * m -> Cabs (x' - x)%C <= al ->
  Cabs (fa_mul ar x' m' - x * RtoC m)%C <= 11 / 10 * t * (Cabs x * m) + 11 / 10 * (al * m) + u.
Proof.
  intros x' x m' m al Hm Hr H. destruct Ha as (D & U & _ & _ & _ & A & _).
  assert (Al : 0 <= al) by (pose proof (Cabs_nonneg (x' - x)%C); lra). pose proof (near_abs _ _ _ H) as N. pose proof (Cabs_nonneg x) as Nx.
  assert (Mp : 0 <= m' <= 101 / 100 * m).
  { unfold Rabs in Hr. destruct (Rcase_abs (m' - m)); assert (e * m <= 1 / 100 * m) by (apply Rmult_le_compat_r; [exact Hm | unfold t in Ht; lra]); lra. }
  eapply Rle_trans; [apply (split3 _ (x' * RtoC m')%C) |]. pose proof (A x' m') as B. rewrite (Rabs_pos_eq m') in B by lra.
  assert (S1 : Cabs (x' * RtoC m' - x * RtoC m)%C <= Cabs x' * (e * m) + al * m).
  { replace (x' * RtoC m' - x * RtoC m)%C with (x' * RtoC (m' - m) + (x' - x) * RtoC m)%C by (rewrite RtoC_sub; ring).
    eapply Rle_trans; [apply Cabs_add |]. rewrite !Cabs_mul, (Cabs_RtoC m) by exact Hm.
    assert (E : Cabs (RtoC (m' - m)) = Rabs (m' - m)) by (unfold Cabs, Cn2; cbn [re im RtoC]; replace ((m' - m) * (m' - m) + 0 * 0) with (Rsqr (m' - m)) by (unfold Rsqr; ring); apply sqrt_Rsqr_abs).
    rewrite E. apply Rplus_le_compat; [apply Rmult_le_compat_l; [apply Cabs_nonneg | exact Hr] | apply Rmult_le_compat_r; lra]. }
  assert (P : 0 <= Cabs x * m) by (apply Rmult_le_pos; lra). assert (Q : 0 <= al * m) by (apply Rmult_le_pos; lra).
  assert (B1 : Cabs x' * m' <= 101 / 100 * (Cabs x * m + al * m)).
  { apply Rle_trans with ((Cabs x + al) * (101 / 100 * m)); [apply Rmult_le_compat; try lra; apply Cabs_nonneg | lra]. }
  assert (B2 : Cabs x' * (e * m) <= e * (Cabs x * m + al * m)).
  { replace (e * (Cabs x * m + al * m)) with ((Cabs x + al) * (e * m)) by ring. apply Rmult_le_compat_r; [apply Rmult_le_pos; lra | lra]. }
  assert (B3 : d * (Cabs x' * m') <= d * (101 / 100 * (Cabs x * m + al * m))) by (apply Rmult_le_compat_l; lra).
  assert (d * (Cabs x * m) + e * (Cabs x * m) = t * (Cabs x * m)) by (unfold t; ring).
  assert (d * (al * m) + e * (al * m) = t * (al * m)) by (unfold t; ring).
  assert (t * (al * m) <= 1 / 100 * (al * m)) by (apply Rmult_le_compat_r; lra).
  assert (0 <= e * (Cabs x * m)) by (apply Rmult_le_pos; lra). assert (0 <= d * (Cabs x * m)) by (apply Rmult_le_pos; lra).
  assert (0 <= e * (al * m)) by (apply Rmult_le_pos; lra). assert (0 <= d * (al * m)) by (apply Rmult_le_pos; lra). lra.
Qed.
Lemma div_err : forall x' x m' m al, 0 < m -> lo <= m' <= hi -> Rabs (m' - m) <= e * m -> Cabs (x' - x)%C <= al ->
  Cabs (fa_div ar x' m' - x / RtoC m)%C <= 11 / 10 * t * (Cabs x / m) + 11 / 10 * (al / m) + u.
Proof.
  intros x' x m' m al Hm Hl Hr H. destruct Ha as (D & U & L & _ & _ & _ & A).
  assert (Al : 0 <= al) by (pose proof (Cabs_nonneg (x' - x)%C); lra). pose proof (near_abs _ _ _ H) as N. pose proof (Cabs_nonneg x) as Nx.
  assert (Mp : 99 / 100 * m <= m').
  { unfold Rabs in Hr. destruct (Rcase_abs (m' - m)); assert (e * m <= 1 / 100 * m) by (apply Rmult_le_compat_r; [lra | unfold t in Ht; lra]); lra. }
  assert (M0 : 0 < m') by lra. assert (Im : 0 < / m) by (apply Rinv_0_lt_compat; exact Hm).
  assert (I1 : / m' <= 102 / 100 * / m).
  { apply (Rmult_le_reg_l m'); [exact M0 |]. rewrite Rinv_r by lra. apply (Rmult_le_reg_r m); [exact Hm |]. rewrite Rmult_1_l.
    replace (m' * (102 / 100 * / m) * m) with (102 / 100 * m') by (field; lra). lra. }
  assert (I2 : Rabs (/ m' - / m) <= 102 / 100 * e * / m).
  { replace (/ m' - / m) with (- (m' - m) * (/ m' * / m)) by (field; lra). assert (J : 0 < / m') by (apply Rinv_0_lt_compat; exact M0).
    rewrite Rabs_mult, Rabs_Ropp, (Rabs_pos_eq (/ m' * / m)) by (apply Rmult_le_pos; lra).
    apply Rle_trans with ((e * m) * (102 / 100 * / m * / m)).
    - apply Rmult_le_compat; [apply Rabs_pos | apply Rmult_le_pos; lra | exact Hr | apply Rmult_le_compat_r; lra].
    - right. field. lra. }
  eapply Rle_trans; [apply (split3 _ (x' / RtoC m')%C) |]. pose proof (A x' m' Hl) as B.
  assert (S1 : Cabs (x' / RtoC m' - x / RtoC m)%C <= Cabs x' * (102 / 100 * e * / m) + al * / m).
  { replace (x' / RtoC m' - x / RtoC m)%C with (x' * RtoC (/ m' - / m) + (x' - x) * RtoC (/ m))%C by (rewrite RtoC_sub, !RtoC_inv by lra; unfold Cdiv; ring).
    eapply Rle_trans; [apply Cabs_add |]. rewrite !Cabs_mul, (Cabs_RtoC (/ m)) by lra.
    assert (E : Cabs (RtoC (/ m' - / m)) = Rabs (/ m' - / m)) by (unfold Cabs, Cn2; cbn [re im RtoC]; replace ((/ m' - / m) * (/ m' - / m) + 0 * 0) with (Rsqr (/ m' - / m)) by (unfold Rsqr; ring); apply sqrt_Rsqr_abs).
    rewrite E. apply Rplus_le_compat; [apply Rmult_le_compat_l; [apply Cabs_nonneg | exact I2] | apply Rmult_le_compat_r; lra]. }
  unfold Rdiv in *. set (P := Cabs x * / m) in *. set (Q := al * / m) in *.
  assert (P0 : 0 <= P) by (apply Rmult_le_pos; lra). assert (Q0 : 0 <= Q) by (apply Rmult_le_pos; lra).
  assert (B1 : Cabs x' * / m' <= 102 * / 100 * (P + Q)).
  { apply Rle_trans with ((Cabs x + al) * (102 * / 100 * / m)); [apply Rmult_le_compat; try lra; [apply Cabs_nonneg | apply Rlt_le, Rinv_0_lt_compat; exact M0] | unfold P, Q; lra]. }
  assert (B2 : Cabs x' * (102 * / 100 * e * / m) <= 102 * / 100 * e * (P + Q)).
  { replace (102 * / 100 * e * (P + Q)) with ((Cabs x + al) * (102 * / 100 * e * / m)) by (unfold P, Q; ring). apply Rmult_le_compat_r; [repeat apply Rmult_le_pos; lra | lra]. }
  assert (B3 : d * (Cabs x' * / m') <= d * (102 * / 100 * (P + Q))) by (apply Rmult_le_compat_l; lra).
  assert (d * P + e * P = t * P) by (unfold t; ring). assert (d * Q + e * Q = t * Q) by (unfold t; ring).
  assert (t * Q <= 1 * / 100 * Q) by (apply Rmult_le_compat_r; [exact Q0 | exact Ht]).
  assert (0 <= e * P) by (apply Rmult_le_pos; lra). assert (0 <= d * P) by (apply Rmult_le_pos; lra).
  assert (0 <= e * Q) by (apply Rmult_le_pos; lra). assert (0 <= d * Q) by (apply Rmult_le_pos; lra). lra.
Qed.
(** Difference quotient, and difference of two of them. *)
Lemma quot_err : forall a b w, lo <= w <= hi -> Cabs (fa_div ar (fa_sub ar a b) w - (a - b) / RtoC w)%C <= 22 / 10 * t * Cabs ((a - b) / RtoC w)%C + u * (1 + 11 / 10 * / w).
Proof.
  intros a b w Hw. assert (L : 0 < lo) by apply Ha. assert (W : 0 < w) by lra. pose proof (sub_exact a b) as S1.
  assert (R0 : Rabs (w - w) <= e * w) by (replace (w - w) with 0 by ring; rewrite Rabs_R0; apply Rmult_le_pos; lra).
  pose proof (div_err _ _ w w _ W Hw R0 S1) as D. rewrite Cabs_div by exact W. unfold Rdiv in *. set (P := Cabs (a - b)%C * / w) in *. fold P in D.
  replace ((t * Cabs (a - b)%C + u) * / w) with (t * P + u * / w) in D by (unfold P; ring). lra.
Qed.
Lemma curl_err : forall a b w a2 b2 w2, lo <= w <= hi -> lo <= w2 <= hi ->
  Cabs (fa_sub ar (fa_div ar (fa_sub ar a b) w) (fa_div ar (fa_sub ar a2 b2) w2) - ((a - b) / RtoC w - (a2 - b2) / RtoC w2))%C <=
  35 / 10 * t * (Cabs ((a - b) / RtoC w)%C + Cabs ((a2 - b2) / RtoC w2)%C) + u * (33 / 10 + 122 / 100 * (/ w + / w2)).
Proof.
  intros a b w a2 b2 w2 H1 H2. eapply Rle_trans; [apply sub_err; [apply quot_err; exact H1 | apply quot_err; exact H2] |].
  set (P := Cabs ((a - b) / RtoC w)%C). set (Q := Cabs ((a2 - b2) / RtoC w2)%C). assert (P0 : 0 <= P) by apply Cabs_nonneg. assert (Q0 : 0 <= Q) by apply Cabs_nonneg.
  pose proof t0. pose proof u0. assert (L : 0 < lo) by apply Ha. assert (0 < / w) by (apply Rinv_0_lt_compat; lra). assert (0 < / w2) by (apply Rinv_0_lt_compat; lra).
  assert (0 <= t * P) by (apply Rmult_le_pos; lra). assert (0 <= t * Q) by (apply Rmult_le_pos; lra).
  assert (0 <= u * / w) by (apply Rmult_le_pos; lra). assert (0 <= u * / w2) by (apply Rmult_le_pos; lra). lra.
Qed.
(** The whole update of E in one cell: x' the machine's curl of H within 35/10 t Q + u A. *)
Lemma e_update : forall v ep' ep m' m c' c Q A, 1 <= ep -> lo <= ep' <= hi -> Rabs (ep' - ep) <= e * ep -> 0 <= m -> Rabs (m' - m) <= e * m ->
  Cabs c <= Q -> 0 <= A -> Cabs (c' - c)%C <= 35 / 10 * t * Q + u * A ->
  Cabs (fa_add ar v (fa_mul ar (fa_div ar c' ep') m') - (v + c / RtoC ep * RtoC m))%C <=
  t * Cabs v + 83 / 10 * t * (Q / ep * m) + u * (21 / 10 + 122 / 100 * m * (1 + 11 / 10 * A)).
Proof.
  intros v ep' ep m' m c' c Q A H1 Hl He1 Hm Hm' Hc A0 H. pose proof t0. pose proof u0. pose proof (Cabs_nonneg c) as Nc. assert (Q0 : 0 <= Q) by lra.
  assert (Ie : 0 < / ep <= 1) by (split; [apply Rinv_0_lt_compat; lra | rewrite <- Rinv_1; apply Rinv_le_contravar; lra]).
  pose proof (div_err c' c ep' ep _ ltac:(lra) Hl He1 H) as D1.
  assert (D2 : Cabs (fa_div ar c' ep' - c / RtoC ep)%C <= 495 / 100 * t * (Q / ep) + u * (1 + 11 / 10 * A)).
  { eapply Rle_trans; [exact D1 |]. unfold Rdiv. assert (Cabs c * / ep <= Q * / ep) by (apply Rmult_le_compat_r; lra). assert (0 <= Q * / ep) by (apply Rmult_le_pos; lra).
    assert (t * (Cabs c * / ep) <= t * (Q * / ep)) by (apply Rmult_le_compat_l; lra). assert (0 <= t * (Q * / ep)) by (apply Rmult_le_pos; lra).
    assert (u * A * / ep <= u * A * 1) by (apply Rmult_le_compat_l; [apply Rmult_le_pos; lra | lra]). 
    replace ((35 * / 10 * t * Q + u * A) * / ep) with (35 * / 10 * (t * (Q * / ep)) + u * A * / ep) by ring. lra. }
  pose proof (mul_err _ _ m' m _ Hm Hm' D2) as M1. rewrite Cabs_div in M1 by lra.
  set (T := Q / ep * m) in *. assert (T0 : 0 <= T) by (unfold T, Rdiv; apply Rmult_le_pos; [apply Rmult_le_pos; lra | exact Hm]).
  assert (C1' : Cabs c / ep * m <= T) by (unfold T, Rdiv; apply Rmult_le_compat_r; [exact Hm | apply Rmult_le_compat_r; lra]).
  assert (M2 : Cabs (fa_mul ar (fa_div ar c' ep') m' - c / RtoC ep * RtoC m)%C <= 655 / 100 * t * T + u * (1 + 11 / 10 * m * (1 + 11 / 10 * A))).
  { eapply Rle_trans; [exact M1 |]. replace ((495 / 100 * t * (Q / ep) + u * (1 + 11 / 10 * A)) * m) with (495 / 100 * (t * T) + u * (1 + 11 / 10 * A) * m) by (unfold T; ring).
    assert (t * (Cabs c / ep * m) <= t * T) by (apply Rmult_le_compat_l; lra). assert (0 <= t * T) by (apply Rmult_le_pos; lra). lra. }
  eapply Rle_trans; [eapply add_err; [apply (near_refl v 0 (Rle_refl 0)) | exact M2] |].
  rewrite Cabs_scal, Cabs_div by lra. assert (t * (Cabs c / ep * m) <= t * T) by (apply Rmult_le_compat_l; lra). assert (0 <= t * T) by (apply Rmult_le_pos; lra).
  assert (0 <= u * (m * (1 + 11 / 10 * A))) by (apply Rmult_le_pos; [lra | apply Rmult_le_pos; lra]). lra.
Qed.
Lemma h_update : forall v m' m c' c Q A, 0 <= m -> Rabs (m' - m) <= e * m -> Cabs c <= Q -> 0 <= A -> Cabs (c' - c)%C <= 35 / 10 * t * Q + u * A ->
  Cabs (fa_sub ar v (fa_mul ar c' m') - (v - c * RtoC m))%C <= t * Cabs v + 83 / 10 * t * (Q * m) + u * (21 / 10 + 122 / 100 * m * (1 + 11 / 10 * A)).
Proof.
  intros v m' m c' c Q A Hm Hm' Hc A0 H. pose proof t0. pose proof u0. pose proof (Cabs_nonneg c) as Nc. assert (Q0 : 0 <= Q) by lra.
  pose proof (mul_err _ _ m' m _ Hm Hm' H) as M1.
  set (T := Q * m) in *. assert (T0 : 0 <= T) by (unfold T; apply Rmult_le_pos; lra).
  assert (C1' : Cabs c * m <= T) by (unfold T; apply Rmult_le_compat_r; lra).
  assert (M2 : Cabs (fa_mul ar c' m' - c * RtoC m)%C <= 655 / 100 * t * T + u * (1 + 11 / 10 * m * (1 + 11 / 10 * A))).
  { eapply Rle_trans; [exact M1 |]. replace ((35 / 10 * t * Q + u * A) * m) with (35 / 10 * (t * T) + u * A * m) by (unfold T; ring).
    assert (t * (Cabs c * m) <= t * T) by (apply Rmult_le_compat_l; lra). assert (0 <= t * T) by (apply Rmult_le_pos; lra).
    assert (0 <= u * (A * m)) by (apply Rmult_le_pos; [lra | apply Rmult_le_pos; lra]). assert (0 <= u * m) by (apply Rmult_le_pos; lra). lra. }
  eapply Rle_trans; [eapply sub_err; [apply (near_refl v 0 (Rle_refl 0)) | exact M2] |].
  rewrite Cabs_scal by lra. assert (t * (Cabs c * m) <= t * T) by (apply Rmult_le_compat_l; lra). assert (0 <= t * T) by (apply Rmult_le_pos; lra).
  assert (0 <= u * (m * (1 + 11 / 10 * A))) by (apply Rmult_le_pos; [lra | apply Rmult_le_pos; lra]). lra.
Qed.
(** Subtracting a source. *)
Lemma e_source : forall x' x v ep' ep m' m X U, 1 <= ep -> lo <= ep' <= hi -> Rabs (ep' - ep) <= e * ep -> 0 <= m -> Rabs (m' - m) <= e * m ->
  Cabs x <= X -> Cabs (x' - x)%C <= 83 / 10 * t * X + u * U ->
  Cabs (fa_sub ar x' (fa_mul ar (fa_div ar v ep') m') - (x - v / RtoC ep * RtoC m))%C <=
  102 / 10 * t * (X + Cabs (v / RtoC ep * RtoC m)%C) + u * (21 / 10 + 122 / 100 * m + 11 / 10 * U).
Proof.
  intros x' x v ep' ep m' m X U H1 Hl He1 Hm Hm' Hx H. pose proof t0. pose proof u0. pose proof (Cabs_nonneg x).
  assert (Ie : 0 < / ep) by (apply Rinv_0_lt_compat; lra).
  pose proof (div_err v v ep' ep 0 ltac:(lra) Hl He1 (near_refl v 0 (Rle_refl 0))) as D1.
  pose proof (mul_err _ _ m' m _ Hm Hm' D1) as M1. rewrite Cabs_div in M1 by lra. rewrite Cabs_scal, Cabs_div by lra. set (T := Cabs v / ep * m) in *.
  assert (T0 : 0 <= T) by (unfold T, Rdiv; apply Rmult_le_pos; [apply Rmult_le_pos; [apply Cabs_nonneg | lra] | exact Hm]).
  assert (M2 : Cabs (fa_mul ar (fa_div ar v ep') m' - v / RtoC ep * RtoC m)%C <= 232 / 100 * t * T + u * (1 + 11 / 10 * m)).
  { eapply Rle_trans; [exact M1 |]. replace (0 / ep) with 0 by (unfold Rdiv; ring).
    replace ((11 / 10 * t * (Cabs v / ep) + 11 / 10 * 0 + u) * m) with (11 / 10 * (t * T) + u * m) by (unfold T; ring). 
    assert (0 <= t * T) by (apply Rmult_le_pos; lra). lra. }
  eapply Rle_trans; [apply sub_err; [exact H | exact M2] |]. rewrite Cabs_scal, Cabs_div by lra. fold T.
  assert (t * Cabs x <= t * X) by (apply Rmult_le_compat_l; lra). assert (0 <= t * T) by (apply Rmult_le_pos; lra). assert (0 <= t * X) by (apply Rmult_le_pos; lra).
  assert (0 <= u * m) by (apply Rmult_le_pos; lra). lra.
Qed.
Lemma h_source : forall x' x v m' m X U, 0 <= m -> Rabs (m' - m) <= e * m -> Cabs x <= X -> Cabs (x' - x)%C <= 83 / 10 * t * X + u * U ->
  Cabs (fa_sub ar x' (fa_mul ar v m') - (x - v * RtoC m))%C <= 102 / 10 * t * (X + Cabs (v * RtoC m)%C) + u * (21 / 10 + 122 / 100 * m + 11 / 10 * U).
Proof.
  intros x' x v m' m X U Hm Hm' Hx H. pose proof t0. pose proof u0. pose proof (Cabs_nonneg x).
  pose proof (mul_err v v m' m 0 Hm Hm' (near_refl v 0 (Rle_refl 0))) as M1. rewrite Cabs_scal by lra. set (T := Cabs v * m) in *.
  assert (T0 : 0 <= T) by (unfold T; apply Rmult_le_pos; [apply Cabs_nonneg | exact Hm]).
  eapply Rle_trans; [apply sub_err; [exact H | exact M1] |]. rewrite Cabs_scal by lra. fold T.
  assert (t * Cabs x <= t * X) by (apply Rmult_le_compat_l; lra). assert (0 <= t * T) by (apply Rmult_le_pos; lra). assert (0 <= t * X) by (apply Rmult_le_pos; lra).
  assert (0 <= u * m) by (apply Rmult_le_pos; lra). lra.
Qed.
End Cell.
