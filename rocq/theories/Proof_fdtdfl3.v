(** Rounding errors of a run. *)
From Coq Require Import Reals Lra Lia Psatz List Arith Bool FunctionalExtensionality.
From Verif Require Import Cx Arr Model_yee Spec_yee Proof_yee Proof_yee2 Model_fdtd Spec_fdtd Proof_fdtd Proof_energy Proof_energy2 Proof_fdtd3 Proof_sym Proof_harm2.
From Verif Require Import Spec_conv Proof_conv3 Proof_duhamel Proof_adj Model_fdtdfl Spec_fdtdfl Proof_fdtdfl Proof_fdtdfl2.
Import ListNotations.
Local Open Scope R_scope.

Section Run.
Variable g : fgrid.
Variables (ar : farith) (mc : mconst) (d u e lo hi emax : R).
Hypothesis W : wf_grid g.
Hypothesis He1 : forall i j k, in_grid (g_shape g) i j k -> 1 <= g_eps g i j k <= emax.
Hypothesis Ha : farith_ok d u lo hi ar.
Hypothesis Hc : const_ok e lo hi g mc.
Let t := d + e.
Hypothesis Ht : t <= 1 / 100.
Let s := g_shape g.
Let dt := dt_of g.
Let V := 12 * u * (1 + dt).
Lemma e_pos : 0 <= e. Proof. apply Hc. Qed.
Lemma tt0 : 0 <= t. Proof. exact (t0 ar d u e lo hi Ha e_pos). Qed.
Lemma uu0 : 0 <= u. Proof. apply Ha. Qed.
Lemma epsr : forall c i j k, in_grid s i j k -> 1 <= eps_t g false c i j k <= emax.
Proof. intros. apply (yee_avg_bounds s (g_eps g) 1 emax); assumption. Qed.
Lemma epsp : forall c i j k, in_grid s i j k -> 0 <= eps_t g false c i j k.
Proof. intros c i j k Hin. pose proof (epsr c i j k Hin). lra. Qed.
Lemma dtp : 0 < dt. Proof. exact (dt_pos g W). Qed.
Lemma len_pos : forall a, 0 < cell_len g a.
Proof. intro a. destruct Hc as (_ & _ & L & _). assert (0 < lo) by apply Ha. pose proof (L a). unfold cell_len. lra. Qed.
Lemma len_ok : forall a, lo <= cell_len g a <= hi.
Proof. intro a. destruct Hc as (_ & _ & L & _). apply L. Qed.
Lemma dt_len : forall a, dt * / cell_len g a <= 1 + dt.
Proof.
  intro a. pose proof dtp as P. unfold cell_len. destruct (is_active g a) eqn:A; [| rewrite Rinv_1; lra]. pose proof (dt_sq g W) as Q. fold dt in Q.
  assert (Sp : 0 < g_spacing g a) by (destruct W as (_ & _ & X & _); apply X; exact A).
  assert (Nn : forall a, 0 <= inv_sq g a).
  { intro b. unfold inv_sq. destruct (is_active g b) eqn:Ea; [| lra]. assert (0 < g_spacing g b) by (destruct W as (_ & _ & X & _); apply X; exact Ea).
    left. apply Rinv_0_lt_compat. nra. }
  assert (Q1 : dt * dt * inv_sq g a <= 1).
  { assert (inv_sq g a <= inv_sq g AX + inv_sq g AY + inv_sq g AZ) by (pose proof (Nn AX); pose proof (Nn AY); pose proof (Nn AZ); destruct a; lra).
    rewrite <- Q. apply Rmult_le_compat_l; [apply Rle_0_sqr | assumption]. }
  unfold inv_sq in Q1. rewrite A in Q1. assert (dt * / g_spacing g a <= 1); [| lra]. apply sq_le_le; [lra |].
  replace (dt * / g_spacing g a * (dt * / g_spacing g a)) with (dt * dt * / (g_spacing g a * g_spacing g a)) by (field; lra). lra.
Qed.
(** The machine's curl. *)
Definition Ac (c : axis) : R := match c with
  | AX => 33 / 10 + 122 / 100 * (/ cell_len g AY + / cell_len g AZ)
  | AY => 33 / 10 + 122 / 100 * (/ cell_len g AZ + / cell_len g AX)
  | AZ => 33 / 10 + 122 / 100 * (/ cell_len g AX + / cell_len g AY) end.
Lemma Ac_bound : forall c, 0 <= Ac c /\ dt * Ac c <= 244 / 100 + 574 / 100 * dt.
Proof.
  intro c. assert (I : forall a, 0 < / cell_len g a) by (intro; apply Rinv_0_lt_compat, len_pos).
  pose proof (I AX); pose proof (I AY); pose proof (I AZ). pose proof (dt_len AX); pose proof (dt_len AY); pose proof (dt_len AZ). destruct c; unfold Ac; split; lra.
Qed.
Lemma curl_cell : forall o f c i j k, Cabs (curl_fl ar g o f c i j k - curl_fn (diff_fn s (g_dx g) o) f c i j k)%C <= 35 / 10 * t * Qf g o f c i j k + u * Ac c.
Proof.
  intros o f c i j k.
  assert (D : forall f a, exists x y, diff_fl ar g o f a i j k = fa_div ar (fa_sub ar x y) (cell_len g a) /\ diff_fn s (g_dx g) o f a i j k = ((x - y) / RtoC (cell_len g a))%C).
  { intros f' a. destruct o; eexists; eexists; split; reflexivity. }
  assert (P : forall f1 a1 f2 a2, Cabs (fa_sub ar (diff_fl ar g o f1 a1 i j k) (diff_fl ar g o f2 a2 i j k) - (diff_fn s (g_dx g) o f1 a1 i j k - diff_fn s (g_dx g) o f2 a2 i j k))%C <=
     35 / 10 * t * (Cabs (diff_fn s (g_dx g) o f1 a1 i j k) + Cabs (diff_fn s (g_dx g) o f2 a2 i j k)) + u * (33 / 10 + 122 / 100 * (/ cell_len g a1 + / cell_len g a2))).
  { intros f1 a1 f2 a2. destruct (D f1 a1) as (x & y & E1 & E2). destruct (D f2 a2) as (x2 & y2 & E3 & E4). rewrite E1, E2, E3, E4.
    apply (curl_err ar d u e lo hi Ha e_pos Ht); apply len_ok. }
  destruct c; apply P.
Qed.
Lemma Q_ge : forall o f c i j k, Cabs (curl_fn (diff_fn s (g_dx g) o) f c i j k) <= Qf g o f c i j k.
Proof. intros. destruct c; apply Cabs_sub. Qed.
Lemma len1 : forall (l : list source), (length l <= 1)%nat -> l = [] \/ exists x, l = [x].
Proof. intros [| x [| y l]] H; [left; reflexivity | right; exists x; reflexivity | cbn in H; lia]. Qed.
Lemma mdt_ok : Rabs (m_dt mc - dt) <= e * dt. Proof. apply Hc. Qed.
Lemma vbound : forall c, u * (21 / 10 + 122 / 100 * dt * (1 + 11 / 10 * Ac c)) <= u * (54 / 10 + 9 * dt) /\ u * (21 / 10 + 122 / 100 * dt + 11 / 10 * (54 / 10 + 9 * dt)) <= V.
Proof.
  intro c. pose proof uu0. destruct (Ac_bound c) as [A B]. pose proof dtp. split; [apply Rmult_le_compat_l; lra |].
  unfold V. replace (12 * u * (1 + dt)) with (u * (12 + 12 * dt)) by ring. apply Rmult_le_compat_l; lra.
Qed.
Lemma Qf_pos : forall o f c i j k, 0 <= Qf g o f c i j k.
Proof. intros. destruct c; unfold Qf; apply Rplus_le_le_0_compat; apply Cabs_nonneg. Qed.
(** One cell of E. *)
Lemma e_cell : forall st l c i j k, (length l <= 1)%nat -> in_grid s i j k ->
  Cabs (f_e (step_fl ar g mc st l) c i j k - f_e (step g false st l) c i j k)%C <=
  11 * t * (Cabs (f_e st c i j k) + dt * Qf g true (f_h st) c i j k / eps_t g false c i j k + Cabs (f_e (push g l) c i j k)) + V.
Proof.
  intros st l c i j k Hl Hin. rewrite step_e_val. pose proof (epsr c i j k Hin) as [E1 _]. destruct Hc as (_ & _ & _ & Hm). destruct (Hm c i j k Hin) as [Er En].
  set (ep := eps_t g false c i j k) in *. set (Q := Qf g true (f_h st) c i j k). set (v := f_e st c i j k). pose proof tt0 as T0. pose proof uu0 as U0. pose proof dtp as D0.
  assert (Q0 : 0 <= Q) by apply Qf_pos. assert (Ie : 0 < / ep) by (apply Rinv_0_lt_compat; lra).
  set (T := Q / ep * dt). assert (ET : dt * Q / ep = T) by (unfold T, Rdiv; ring). rewrite ET. assert (TP : 0 <= T) by (unfold T, Rdiv; apply Rmult_le_pos; [apply Rmult_le_pos; lra | lra]).
  pose proof (e_update ar d u e lo hi Ha e_pos Ht v (m_eps mc c i j k) ep (m_dt mc) dt _ _ Q (Ac c) E1 Er En (Rlt_le _ _ D0) mdt_ok
    (Q_ge true (f_h st) c i j k) (proj1 (Ac_bound c)) (curl_cell true (f_h st) c i j k)) as B. fold T t in B.
  destruct (vbound c) as [V1 V2]. pose proof (Cabs_nonneg v) as N0. pose proof (Cabs_nonneg (f_e (push g l) c i j k)) as N1.
  assert (X1 : 0 <= t * Cabs v) by (apply Rmult_le_pos; assumption). assert (X2 : 0 <= t * T) by (apply Rmult_le_pos; assumption).
  assert (X3 : 0 <= t * Cabs (f_e (push g l) c i j k)) by (apply Rmult_le_pos; assumption). assert (X4 : 0 <= u * dt) by (apply Rmult_le_pos; lra).
  assert (VV : u * (54 / 10 + 9 * dt) <= V) by (unfold V; lra).
  set (c0 := curl_fn (diff_fn s (g_dx g) true) (f_h st) c i j k) in *. change (curl_h g (f_h st) c i j k) with c0. fold dt.
  assert (N : l = [] \/ (exists x, l = [x] /\ (src_e x = None \/ exists w, src_e x = Some w /\ src_region x c i j k = false)) \/
              exists x w, l = [x] /\ src_e x = Some w /\ src_region x c i j k = true).
  { destruct (len1 l Hl) as [-> | [x ->]]; [left; reflexivity | right]. destruct (src_e x) as [w |] eqn:Es; [| left; exists x; split; [reflexivity | left; exact Es]].
    destruct (src_region x c i j k) eqn:Rg; [right; exists x, w; auto | left; exists x; split; [reflexivity | right; exists w; auto]]. }
  assert (Plain : Cabs (fa_add ar v (fa_mul ar (fa_div ar (curl_fl ar g true (f_h st) c i j k) (m_eps mc c i j k)) (m_dt mc)) - (v + c0 / RtoC ep * RtoC dt - C0 / RtoC ep * RtoC dt))%C <=
     11 * t * (Cabs v + T + Cabs (f_e (push g l) c i j k)) + V).
  { replace (v + c0 / RtoC ep * RtoC dt - C0 / RtoC ep * RtoC dt)%C with (v + c0 / RtoC ep * RtoC dt)%C by (unfold Cdiv; ring). eapply Rle_trans; [exact B |]. lra. }
  destruct N as [-> | [(x & -> & Hx) | (x & w & -> & Es & Rg)]].
  - unfold step_fl. cbn [f_e]. unfold step_e_fl. cbn [fold_left current]. exact Plain.
  - assert (Cz : current src_e [x] c i j k = C0).
    { cbn [current]. unfold masked, zero_vfld. destruct Hx as [Hx | (w & Hx & Rg)]; rewrite Hx; [| rewrite Rg]; ring. }
    rewrite Cz. unfold step_fl. cbn [f_e]. unfold step_e_fl. cbn [fold_left]. unfold add_src_e_fl. destruct Hx as [Hx | (w & Hx & Rg)]; rewrite Hx; [| rewrite Rg]; exact Plain.
  - assert (Cz : current src_e [x] c i j k = w c i j k) by (cbn [current]; unfold masked, zero_vfld; rewrite Es, Rg; ring).
    unfold push. cbn [f_e]. rewrite Cz. fold ep dt. unfold step_fl. cbn [f_e]. unfold step_e_fl. cbn [fold_left]. unfold add_src_e_fl. rewrite Es, Rg.
    assert (Xb : Cabs (v + c0 / RtoC ep * RtoC dt)%C <= Cabs v + T).
    { eapply Rle_trans; [apply Cabs_add |]. rewrite Cabs_scal, Cabs_div by lra. unfold T. apply Rplus_le_compat_l. apply Rmult_le_compat_r; [lra |]. apply Rmult_le_compat_r; [lra |]. apply Q_ge. }
    pose proof (e_source ar d u e lo hi Ha e_pos Ht (fa_add ar v (fa_mul ar (fa_div ar (curl_fl ar g true (f_h st) c i j k) (m_eps mc c i j k)) (m_dt mc))) (v + c0 / RtoC ep * RtoC dt)%C (w c i j k) (m_eps mc c i j k) ep (m_dt mc) dt (Cabs v + T) (54 / 10 + 9 * dt) E1 Er En (Rlt_le _ _ D0) mdt_ok Xb) as B2. fold t in B2.
    eapply Rle_trans; [apply B2 |].
    + eapply Rle_trans; [exact B |]. lra.
    + assert (0 <= t * Cabs (w c i j k / RtoC ep * RtoC dt)%C) by (apply Rmult_le_pos; [exact T0 | apply Cabs_nonneg]). lra.
Qed.
(** One cell of H, from the machine's E. *)
Lemma h_cell : forall e' st l c i j k, (length l <= 1)%nat -> in_grid s i j k ->
  Cabs (step_h_fl ar g mc e' (f_h st) l c i j k - (f_h st c i j k - curl_e g e' c i j k * RtoC dt - current src_h l c i j k * RtoC dt))%C <=
  11 * t * (Cabs (f_h st c i j k) + dt * Qf g false e' c i j k + Cabs (f_h (push g l) c i j k)) + V.
Proof.
  intros e' st l c i j k Hl Hin. set (Q := Qf g false e' c i j k). set (v := f_h st c i j k). pose proof tt0 as T0. pose proof uu0 as U0. pose proof dtp as D0.
  assert (Q0 : 0 <= Q) by apply Qf_pos. set (T := Q * dt). assert (ET : dt * Q = T) by (unfold T; ring). rewrite ET. assert (TP : 0 <= T) by (unfold T; apply Rmult_le_pos; lra).
  pose proof (h_update ar d u e lo hi Ha e_pos Ht v (m_dt mc) dt _ _ Q (Ac c) (Rlt_le _ _ D0) mdt_ok
    (Q_ge false e' c i j k) (proj1 (Ac_bound c)) (curl_cell false e' c i j k)) as B. fold T t in B.
  destruct (vbound c) as [V1 V2]. pose proof (Cabs_nonneg v) as N0. pose proof (Cabs_nonneg (f_h (push g l) c i j k)) as N1.
  assert (X1 : 0 <= t * Cabs v) by (apply Rmult_le_pos; assumption). assert (X2 : 0 <= t * T) by (apply Rmult_le_pos; assumption).
  assert (X3 : 0 <= t * Cabs (f_h (push g l) c i j k)) by (apply Rmult_le_pos; assumption). assert (X4 : 0 <= u * dt) by (apply Rmult_le_pos; lra).
  assert (VV : u * (54 / 10 + 9 * dt) <= V) by (unfold V; lra).
  set (c0 := curl_fn (diff_fn s (g_dx g) false) e' c i j k) in *. change (curl_e g e' c i j k) with c0.
  assert (N : l = [] \/ (exists x, l = [x] /\ (src_h x = None \/ exists w, src_h x = Some w /\ src_region x c i j k = false)) \/
              exists x w, l = [x] /\ src_h x = Some w /\ src_region x c i j k = true).
  { destruct (len1 l Hl) as [-> | [x ->]]; [left; reflexivity | right]. destruct (src_h x) as [w |] eqn:Es; [| left; exists x; split; [reflexivity | left; exact Es]].
    destruct (src_region x c i j k) eqn:Rg; [right; exists x, w; auto | left; exists x; split; [reflexivity | right; exists w; auto]]. }
  assert (Plain : Cabs (fa_sub ar v (fa_mul ar (curl_fl ar g false e' c i j k) (m_dt mc)) - (v - c0 * RtoC dt - C0 * RtoC dt))%C <=
     11 * t * (Cabs v + T + Cabs (f_h (push g l) c i j k)) + V).
  { replace (v - c0 * RtoC dt - C0 * RtoC dt)%C with (v - c0 * RtoC dt)%C by ring. eapply Rle_trans; [exact B |]. lra. }
  destruct N as [-> | [(x & -> & Hx) | (x & w & -> & Es & Rg)]].
  - unfold step_h_fl. cbn [fold_left current]. exact Plain.
  - assert (Cz : current src_h [x] c i j k = C0).
    { cbn [current]. unfold masked, zero_vfld. destruct Hx as [Hx | (w & Hx & Rg)]; rewrite Hx; [| rewrite Rg]; ring. }
    rewrite Cz. unfold step_h_fl. cbn [fold_left]. unfold add_src_h_fl. destruct Hx as [Hx | (w & Hx & Rg)]; rewrite Hx; [| rewrite Rg]; exact Plain.
  - assert (Cz : current src_h [x] c i j k = w c i j k) by (cbn [current]; unfold masked, zero_vfld; rewrite Es, Rg; ring).
    unfold push. cbn [f_h]. rewrite Cz. fold dt. unfold step_h_fl. cbn [fold_left]. unfold add_src_h_fl. rewrite Es, Rg.
    assert (Xb : Cabs (v - c0 * RtoC dt)%C <= Cabs v + T).
    { eapply Rle_trans; [apply Cabs_sub |]. rewrite Cabs_scal by lra. unfold T. apply Rplus_le_compat_l. apply Rmult_le_compat_r; [lra |]. apply Q_ge. }
    pose proof (h_source ar d u e lo hi Ha e_pos Ht (fa_sub ar v (fa_mul ar (curl_fl ar g false e' c i j k) (m_dt mc))) (v - c0 * RtoC dt)%C (w c i j k) (m_dt mc) dt (Cabs v + T) (54 / 10 + 9 * dt) (Rlt_le _ _ D0) mdt_ok Xb) as B2. fold t in B2.
    eapply Rle_trans; [apply B2 |].
    + eapply Rle_trans; [exact B |]. lra.
    + assert (0 <= t * Cabs (w c i j k * RtoC dt)%C) by (apply Rmult_le_pos; [exact T0 | apply Cabs_nonneg]). lra.
Qed.
End Run.
