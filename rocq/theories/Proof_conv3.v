(** The residual of Maxwell's equations on the grid, and the error of the simulation. *)
From Coq Require Import Reals Lra Lia Psatz List Arith Bool FunctionalExtensionality.
From Verif Require Import Cx Arr Model_yee Spec_yee Proof_yee Proof_yee2 Model_fdtd Spec_fdtd Proof_fdtd Proof_energy Proof_energy2 Proof_fdtd3 Proof_sym Proof_harm2.
From Verif Require Import Spec_conv Proof_conv Proof_conv2 Proof_duhamel.
Import ListNotations.
Local Open Scope R_scope.

Lemma rgrid_sum_const : forall s x, rgrid_sum s (fun _ _ _ => x) = INR (s AX * s AY * s AZ) * x.
Proof.
  intros. assert (Rsum_const : forall n y, Rsum n (fun _ => y) = INR n * y).
  { intros n y. induction n; [cbn; ring |]. cbn [Rsum]. rewrite IHn, S_INR. ring. }
  unfold rgrid_sum. rewrite (Rsum_ext (s AX) _ (fun _ => INR (s AY) * (INR (s AZ) * x))).
  - rewrite Rsum_const, !mult_INR. ring.
  - intros. rewrite (Rsum_ext (s AY) _ (fun _ => INR (s AZ) * x)) by (intros; apply Rsum_const). apply Rsum_const.
Qed.
Lemma Cn2_RtoC : forall x, Cn2 (RtoC x) = x * x.
Proof. intro. unfold Cn2. cbn [re im RtoC]. ring. Qed.
Lemma abs_sq : forall x b, Rabs x <= b -> x * x <= b * b.
Proof. intros x b H. apply absle in H. nra. Qed.

Section Conv.
Variable g : fgrid.
Variables E H J K : axis -> smooth_field.
Variables DE DH : axis -> axis -> smooth_field.
Variables TE TH : axis -> smooth_field.
Variable sch : nat -> list source.
Variables M Dx emax : R.
Hypothesis W : wf_grid g.
Hypothesis He1 : forall i j k, in_grid (g_shape g) i j k -> 1 <= g_eps g i j k <= emax.
Hypothesis HD : forall a, is_active g a = true -> g_spacing g a <= Dx.
Hypothesis FE : fits_grid g E.
Hypothesis FH : fits_grid g H.
Hypothesis SE : derivatives M E DE TE.
Hypothesis SH : derivatives M H DH TH.
Hypothesis MX : maxwell g DE DH TE TH J K.
Hypothesis DR : drives g sch J K.
Let s := g_shape g.
Let dt := dt_of g.
Let mu := M * Dx ^ 2 / 24.

Lemma M_pos : 0 <= M.
Proof. destruct (SE AX (fun _ => 0) 0) as [_ (f2 & f3 & _ & _ & _ & B)]. pose proof (B 0). pose proof (Rabs_pos (f3 0)). lra. Qed.
Lemma dt_le : 0 < dt <= Dx.
Proof.
  pose proof (dt_pos g W) as P. split; [exact P |]. pose proof (dt_sq g W) as Q. fold dt in Q, P.
  assert (A : is_active g AX = true) by (unfold is_active; apply Nat.ltb_lt; destruct W as [? _]; simpl; lia).
  pose proof (HD AX A) as B. assert (Sp : 0 < g_spacing g AX) by (destruct W as (_ & _ & X & _); apply X; exact A).
  assert (Nn : forall a, 0 <= inv_sq g a).
  { intro a. unfold inv_sq. destruct (is_active g a) eqn:Ea; [| lra]. assert (0 < g_spacing g a) by (destruct W as (_ & _ & X & _); apply X; exact Ea).
    left. apply Rinv_0_lt_compat. nra. }
  assert (Q1 : dt * dt * inv_sq g AX <= 1) by (pose proof (Nn AY); pose proof (Nn AZ); nra).
  unfold inv_sq in Q1. rewrite A in Q1. apply Rle_trans with (g_spacing g AX); [| exact B]. apply sq_le_le; [lra |].
  apply (Rmult_le_reg_r (/ (g_spacing g AX * g_spacing g AX))); [apply Rinv_0_lt_compat; nra |].
  rewrite Rinv_r by nra. exact Q1.
Qed.
Lemma eps_range : forall c i j k, in_grid s i j k -> 1 <= eps_t g false c i j k <= emax.
Proof. intros. apply (yee_avg_bounds s (g_eps g) 1 emax); assumption. Qed.
(** Time differences. *)
Lemma time_diff : forall F D T c p t, derivatives M F D T -> exists q, F c p (t + dt / 2) - F c p (t - dt / 2) = dt * (T c p t + q) /\ Rabs q <= mu.
Proof.
  intros F D T c p t Hd. destruct (Hd c p t) as [_ Ht]. pose proof dt_le as [P L]. pose proof (central M _ _ t dt Ht P) as C.
  exists ((F c p (t + dt / 2) - F c p (t - dt / 2)) / dt - T c p t). split; [field; lra |]. eapply Rle_trans; [exact C |]. unfold mu.
  pose proof M_pos. assert (dt ^ 2 <= Dx ^ 2) by nra. nra.
Qed.
Definition resid (n : nat) : fstate := gap (exact_state g E H (S n)) (step g false (exact_state g E H n) (sch n)).
Lemma resid_e : forall n c i j k, in_grid s i j k -> eps_t g false c i j k * Cn2 (f_e (resid n) c i j k) <= (dt * mu * (sqrt emax + 2)) * (dt * mu * (sqrt emax + 2)).
Proof.
  intros n c i j k Hin. pose proof (eps_range c i j k Hin) as Re. unfold resid, gap. cbn [f_e]. rewrite step_e_val. unfold exact_state. cbn [f_e f_h].
  destruct (DR n c i j k Hin) as [Je _]. rewrite Je.
  destruct (curl_h_samples g H M Dx DH TH ((INR n + 1 / 2) * dt_of g) c i j k W FH SH HD Hin) as (q2 & E2 & B2). rewrite E2.
  unfold e_samples. set (p := e_place g c i j k) in *.
  destruct (time_diff E DE TE c p ((INR n + 1 / 2) * dt) SE) as (q1 & E1 & B1).
  replace ((INR n + 1 / 2) * dt + dt / 2) with (INR (S n) * dt_of g) in E1 by (rewrite S_INR; unfold dt; field).
  replace ((INR n + 1 / 2) * dt - dt / 2) with (INR n * dt_of g) in E1 by (unfold dt; field).
  pose proof (proj1 MX c i j k ((INR n + 1 / 2) * dt) Hin) as Mx. fold p in Mx.
  set (ep := eps_t g false c i j k) in *. fold dt. fold dt in E1, B2 |- *. fold dt in Mx.
  set (e1 := E c p (INR (S n) * dt)) in *. set (e0 := E c p (INR n * dt)) in *. set (jj := J c p ((INR n + 1 / 2) * dt)) in *.
  set (cu := curl_of DH c p ((INR n + 1 / 2) * dt)) in *. set (te := TE c p ((INR n + 1 / 2) * dt)) in *.
  assert (V : (RtoC e1 - (RtoC e0 + RtoC q2 / RtoC ep * RtoC dt - RtoC jj / RtoC ep * RtoC dt))%C = RtoC (dt * (q1 - (q2 - cu) / ep))).
  { assert (Te : te = (cu - jj) / ep) by (apply (Rmult_eq_reg_l ep); [rewrite Mx; field; lra | lra]).
    replace e1 with (e0 + dt * (te + q1)) by lra. rewrite Te.
    apply C_eq; unfold Cdiv, Cinv, Cn2; cbn [re im RtoC Csub Cmul Cadd Copp]; field; lra. }
  rewrite V, Cn2_RtoC. set (r := sqrt ep). assert (Rr : r * r = ep) by (apply sqrt_sqrt; lra). assert (R1 : 1 <= r) by (unfold r; rewrite <- sqrt_1; apply sqrt_le_1_alt; lra).
  assert (R2 : r <= sqrt emax) by (unfold r; apply sqrt_le_1_alt; lra).
  replace (ep * (dt * (q1 - (q2 - cu) / ep) * (dt * (q1 - (q2 - cu) / ep)))) with ((dt * (r * q1 - (q2 - cu) / r)) * (dt * (r * q1 - (q2 - cu) / r))) by (rewrite <- Rr; field; lra).
  apply abs_sq. rewrite Rabs_mult, (Rabs_pos_eq dt) by (apply Rlt_le, dt_le). rewrite Rmult_assoc. apply Rmult_le_compat_l; [apply Rlt_le, dt_le |].
  unfold Rminus at 1. eapply Rle_trans; [apply Rabs_triang |]. rewrite Rabs_Ropp, Rabs_mult, (Rabs_pos_eq r) by lra. unfold Rdiv at 1. rewrite Rabs_mult, (Rabs_pos_eq (/ r)) by (apply Rlt_le, Rinv_0_lt_compat; lra).
  fold mu in B2. assert (Mu : 0 <= mu) by (pose proof (Rabs_pos q1); lra).
  assert (I1 : 0 < / r <= 1) by (split; [apply Rinv_0_lt_compat; lra | rewrite <- Rinv_1; apply Rinv_le_contravar; lra]).
  pose proof (Rabs_pos q1). pose proof (Rabs_pos (q2 - cu)).
  assert (r * Rabs q1 <= sqrt emax * mu) by (apply Rmult_le_compat; lra).
  assert (Rabs (q2 - cu) * / r <= 2 * mu * 1) by (apply Rmult_le_compat; lra). lra.
Qed.
(** The part of the residual of H that is not caused by the residual of E. *)
Definition resid_h (n : nat) : vfld := vadd (f_h (resid n)) (vscal dt (curl_e g (f_e (resid n)))).
Lemma resid_h_small : forall n c i j k, in_grid s i j k -> Cn2 (resid_h n c i j k) <= (dt * (3 * mu)) * (dt * (3 * mu)).
Proof.
  intros n c i j k Hin. unfold resid_h, vadd, vscal, resid, gap. cbn [f_h f_e].
  replace (fun c i j k => f_e (exact_state g E H (S n)) c i j k - f_e (step g false (exact_state g E H n) (sch n)) c i j k)%C
    with (lin C1 (- C1) (f_e (exact_state g E H (S n))) (f_e (step g false (exact_state g E H n) (sch n)))).
  2:{ apply same_eq. intros c' i' j' k'. unfold lin. ring. }
  rewrite h_step. unfold vadd, vscal, curl_e. rewrite curl_lin.
  unfold exact_state. cbn [f_h f_e].
  destruct (DR n c i j k Hin) as [_ Kh]. rewrite Kh.
  destruct (curl_e_samples g E M Dx DE TE (INR (S n) * dt_of g) c i j k W FE SE HD Hin) as (q2 & E2 & B2). unfold curl_e in E2. rewrite E2.
  unfold h_samples at 1 2 4. set (p := h_place g c i j k) in *.
  destruct (time_diff H DH TH c p (INR (S n) * dt) SH) as (q1 & E1 & B1).
  replace (INR (S n) * dt + dt / 2) with ((INR (S n) + 1 / 2) * dt_of g) in E1 by (unfold dt; field).
  replace (INR (S n) * dt - dt / 2) with ((INR n + 1 / 2) * dt_of g) in E1 by (rewrite S_INR; unfold dt; field).
  pose proof (proj2 MX c i j k (INR (S n) * dt) Hin) as Mx. fold p in Mx. fold dt in E1, B2, Mx |- *.
  replace ((INR n + 1) * dt) with (INR (S n) * dt) by (rewrite S_INR; ring).
  set (h1 := H c p ((INR (S n) + 1 / 2) * dt)) in *. set (h0 := H c p ((INR n + 1 / 2) * dt)) in *. set (kk := K c p (INR (S n) * dt)) in *.
  set (cu := curl_of DE c p (INR (S n) * dt)) in *. set (th := TH c p (INR (S n) * dt)) in *.
  match goal with |- Cn2 ?z <= _ => replace z with (RtoC (dt * (q1 + (q2 - cu)))) end.
  2:{ replace h1 with (h0 + dt * (th + q1)) by lra. rewrite Mx. apply C_eq; cbn [re im RtoC Csub Cmul Cadd Copp C1]; unfold curl_e; ring. }
  rewrite Cn2_RtoC. apply abs_sq. rewrite Rabs_mult, (Rabs_pos_eq dt) by (apply Rlt_le, dt_le). apply Rmult_le_compat_l; [apply Rlt_le, dt_le |].
  eapply Rle_trans; [apply Rabs_triang |]. fold mu in B2. lra.
Qed.
Lemma eps_pos : forall c i j k, in_grid s i j k -> 0 <= eps_t g false c i j k.
Proof. intros. pose proof (eps_range c i j k H0). lra. Qed.
Let cells3 := 3 * INR (g_shape g AX * g_shape g AY * g_shape g AZ).
Lemma resid_norm : forall n, nst g (resid n) <= sqrt cells3 * (dt * (M * Dx ^ 2) * ((sqrt emax + 3) / 8)).
Proof.
  intro n. assert (C0' : 0 <= cells3) by (unfold cells3; pose proof (pos_INR (g_shape g AX * g_shape g AY * g_shape g AZ)); lra).
  assert (Mu : 0 <= mu) by (unfold mu; pose proof M_pos; pose proof (pow2_ge_0 Dx); nra). pose proof dt_le as [P _]. pose proof (sqrt_pos emax) as Sm.
  assert (Sq : forall b, sqrt cells3 * b * (sqrt cells3 * b) = cells3 * (b * b)) by (intro b; rewrite <- (sqrt_sqrt cells3 C0') at 3; ring).
  assert (Bb : forall x y, 0 <= x -> dt * mu * x = y -> 0 <= y) by (intros x y Hx <-; apply Rmult_le_pos; [apply Rmult_le_pos; lra | exact Hx]).
  set (qe := sqrt (Qe g false (f_e (resid n)))).
  assert (Qp : 0 <= Qe g false (f_e (resid n))).
  { rewrite Qe_value. unfold sum3. fold s. assert (X : forall c, 0 <= rgrid_sum s (fun i j k => eps_t g false c i j k * Cn2 (f_e (resid n) c i j k))).
    { intro c. apply rgrid_sum_nonneg. intros i j k Hin. pose proof (eps_pos c i j k Hin). pose proof (Cn2_nonneg (f_e (resid n) c i j k)). nra. }
    pose proof (X AX); pose proof (X AY); pose proof (X AZ). lra. }
  assert (Q2 : qe * qe = Qe g false (f_e (resid n))) by (apply sqrt_sqrt; exact Qp). assert (Q0 : 0 <= qe) by apply sqrt_pos.
  assert (B1 : qe <= sqrt cells3 * (dt * mu * (sqrt emax + 2))).
  { apply sq_le_le; [apply Rmult_le_pos; [apply sqrt_pos | apply (Bb (sqrt emax + 2)); [lra | reflexivity]] |]. rewrite Q2, Sq, Qe_value. unfold sum3. fold s.
    assert (X : forall c, rgrid_sum s (fun i j k => eps_t g false c i j k * Cn2 (f_e (resid n) c i j k)) <= INR (s AX * s AY * s AZ) * ((dt * mu * (sqrt emax + 2)) * (dt * mu * (sqrt emax + 2)))).
    { intro c. rewrite <- rgrid_sum_const. apply rgrid_sum_le. intros i j k Hin. apply resid_e. exact Hin. }
    pose proof (X AX); pose proof (X AY); pose proof (X AZ). unfold cells3. fold s. lra. }
  assert (B2 : nrm s (resid_h n) <= sqrt cells3 * (dt * (3 * mu))).
  { apply sq_le_le; [apply Rmult_le_pos; [apply sqrt_pos | apply (Bb 3); [lra | ring]] |]. rewrite nrm_sq, Sq, rin_split, !sin_self.
    assert (X : forall c, rgrid_sum s (fun i j k => Cn2 (resid_h n c i j k)) <= INR (s AX * s AY * s AZ) * ((dt * (3 * mu)) * (dt * (3 * mu)))).
    { intro c. rewrite <- rgrid_sum_const. apply rgrid_sum_le. intros i j k Hin. apply resid_h_small. exact Hin. }
    pose proof (X AX); pose proof (X AY); pose proof (X AZ). unfold cells3. fold s. lra. }
  assert (B3 : nrm s (f_e (resid n)) <= qe).
  { apply sq_le_le; [exact Q0 |]. rewrite nrm_sq, Q2, Qe_value, rin_split, !sin_self. unfold sum3. fold s.
    assert (X : forall c, rgrid_sum s (fun i j k => Cn2 (f_e (resid n) c i j k)) <= rgrid_sum s (fun i j k => eps_t g false c i j k * Cn2 (f_e (resid n) c i j k))).
    { intro c. apply rgrid_sum_le. intros i j k Hin. pose proof (eps_range c i j k Hin). pose proof (Cn2_nonneg (f_e (resid n) c i j k)). nra. }
    pose proof (X AX); pose proof (X AY); pose proof (X AZ). lra. }
  assert (B4 : nrm s (f_h (resid n)) <= nrm s (resid_h n) + 2 * qe).
  { replace (f_h (resid n)) with (vadd (resid_h n) (vscal (- dt) (curl_e g (f_e (resid n))))).
    2:{ apply same_eq. intros c i j k. unfold resid_h, vadd, vscal. rewrite RtoC_opp. ring. }
    eapply Rle_trans; [apply nrm_triangle |]. rewrite nrm_scal, Rabs_Ropp, (Rabs_pos_eq dt) by lra. pose proof (dt_curl_norm g W (f_e (resid n))) as Dc. fold s dt in Dc. lra. }
  pose proof (nrm_pos s (f_h (resid n))) as Nh.
  apply Rle_trans with (qe + nrm s (f_h (resid n))).
  - apply sq_le_le; [lra |]. rewrite nst_sq by exact eps_pos. rewrite energy_value. fold s. rewrite <- Q2, <- nrm_sq. nra.
  - replace (sqrt cells3 * (dt * (M * Dx ^ 2) * ((sqrt emax + 3) / 8))) with (3 * (sqrt cells3 * (dt * mu * (sqrt emax + 2))) + sqrt cells3 * (dt * (3 * mu))) by (unfold mu; field). lra.
Qed.
(** The simulation from any initial state. *)
Variable st0 : fstate.
Definition sim (n : nat) : fstate := run g false st0 (map sch (seq 0 n)).
Lemma run_app1 : forall l st x, run g false st (l ++ [x]) = step g false (run g false st l) x.
Proof. induction l; intros; [reflexivity |]. cbn [app run]. apply IHl. Qed.
Lemma sim_S : forall n, sim (S n) = step g false (sim n) (sch n).
Proof. intro n. unfold sim. rewrite seq_S, map_app. cbn [map plus]. apply run_app1. Qed.
Lemma err_S : forall n, gap (exact_state g E H (S n)) (sim (S n)) = sadd (step g false (gap (exact_state g E H n) (sim n)) []) (resid n).
Proof.
  intro n. rewrite sim_S, <- step_gap with (l := sch n). unfold resid. apply state_eq; intros c i j k; unfold sadd, vadd, gap; cbn [f_e f_h]; ring.
Qed.
Lemma gap_swap : forall a b, field_energy g false (gap a b) = field_energy g false (gap b a).
Proof.
  intros. unfold field_energy, sum3, gap. cbn [f_e f_h].
  f_equal; [f_equal |]; apply rgrid_sum_ext; intros; unfold Cn2; cbn [re im Csub]; ring.
Qed.
Lemma cells3_pos : 0 < cells3.
Proof.
  unfold cells3. assert (0 < INR (g_shape g AX * g_shape g AY * g_shape g AZ)); [| lra]. apply lt_0_INR. destruct W as (_ & Q & _).
  pose proof (Q AX); pose proof (Q AY); pose proof (Q AZ). nia.
Qed.
Lemma rms_nst : forall st, rms g st = nst g st / sqrt cells3.
Proof. intro. unfold rms, nst. rewrite sqrt_div_alt by exact cells3_pos. reflexivity. Qed.
Lemma err_bound : forall (Bd : nat -> R), (forall st n, nst g (free_run g false st n) <= Bd n * nst g st) -> (forall n, 0 <= Bd n) ->
  forall N, rms g (gap (sim N) (exact_state g E H N)) <=
    Bd N * rms g (gap st0 (exact_state g E H 0)) + Rsum N (fun k => Bd (N - 1 - k)%nat) * (dt * (M * Dx ^ 2) * ((sqrt emax + 3) / 8)).
Proof.
  intros Bd HB Bp N. pose proof (duhamel g eps_pos Bd HB (fun n => gap (exact_state g E H n) (sim n)) resid err_S N 0%nat) as D. cbv beta in D.
  cbn [free_run repeat run plus] in D. pose proof (sqrt_lt_R0 _ cells3_pos) as Sp.
  assert (Sw : forall a b, rms g (gap a b) = nst g (gap b a) / sqrt cells3) by (intros; rewrite rms_nst; unfold nst; rewrite gap_swap; reflexivity).
  rewrite !Sw. change (sim 0) with st0 in D.
  apply (Rmult_le_reg_r (sqrt cells3)); [exact Sp |]. unfold Rdiv at 1. rewrite Rmult_assoc, Rinv_l, Rmult_1_r by lra.
  eapply Rle_trans; [exact D |]. rewrite Rmult_plus_distr_r. apply Rplus_le_compat.
  - right. field. lra.
  - rewrite Rmult_assoc, (Rmult_comm _ (sqrt cells3)), Rmult_comm, <- Rsum_scal. apply Rsum_le. intros k _.
    rewrite Rmult_comm. apply Rmult_le_compat_r; [apply Bp | apply resid_norm].
Qed.
End Conv.

Lemma sum_growth : forall N, Rsum N (fun k => 4 * (INR (N - 1 - k) + 1)) = 2 * INR N * (INR N + 1).
Proof.
  assert (A : forall m N, (m <= N)%nat -> Rsum m (fun k => 4 * (INR (N - 1 - k) + 1)) = 4 * (INR m * INR N) - 2 * (INR m * (INR m - 1))).
  { induction m; intros N Hm; [cbn; ring |]. cbn [Rsum]. rewrite IHm by lia. rewrite !minus_INR by lia. rewrite !S_INR. change (INR 0) with 0. ring. }
  intro N. rewrite A by lia. ring.
Qed.
Lemma Rsum_const' : forall n y, Rsum n (fun _ => y) = INR n * y.
Proof. intros n y. induction n; [cbn; ring |]. cbn [Rsum]. rewrite IHn, S_INR. ring. Qed.
Lemma convergence_any : forall g E H J K DE DH TE TH sch M Dx emax st0 N, wf_grid g -> (forall i j k, in_grid (g_shape g) i j k -> 1 <= g_eps g i j k <= emax) ->
  (forall a, is_active g a = true -> g_spacing g a <= Dx) -> fits_grid g E -> fits_grid g H -> derivatives M E DE TE -> derivatives M H DH TH ->
  maxwell g DE DH TE TH J K -> drives g sch J K ->
  rms g (gap (run g false st0 (map sch (seq 0 N))) (exact_state g E H N)) <=
  4 * (INR N + 1) * rms g (gap st0 (exact_state g E H 0)) + (INR N + 1) * (INR N * dt_of g) * ((sqrt emax + 3) / 4) * M * Dx ^ 2.
Proof.
  intros g E H J K DE DH TE TH sch M Dx emax st0 N W He HD FE FH SE SH MX DR.
  pose proof (err_bound g E H J K DE DH TE TH sch M Dx emax W He HD FE FH SE SH MX DR st0 (fun n => 4 * (INR n + 1))) as B. unfold sim in B.
  eapply Rle_trans; [apply B | rewrite sum_growth; right; field].
  - intros st n. pose proof (growth_bound g false st n W (fun i j k Hin => proj1 (He i j k Hin))) as G.
    assert (P : forall c i j k, in_grid (g_shape g) i j k -> 0 <= eps_t g false c i j k) by (intros; eapply eps_pos; eauto).
    apply sq_le_le; [apply Rmult_le_pos; [pose proof (pos_INR n); lra | apply nst_pos] |]. rewrite nst_sq by exact P.
    replace (4 * (INR n + 1) * nst g st * (4 * (INR n + 1) * nst g st)) with (16 * ((INR n + 1) * (INR n + 1)) * (nst g st * nst g st)) by ring.
    rewrite nst_sq by exact P. exact G.
  - intro n. pose proof (pos_INR n). lra.
Qed.
Lemma convergence : forall g E H J K DE DH TE TH sch M Dx kap emax st0 N, wf_grid g -> 1 < kap -> (forall i j k, in_grid (g_shape g) i j k -> kap <= g_eps g i j k <= emax) ->
  (forall a, is_active g a = true -> g_spacing g a <= Dx) -> fits_grid g E -> fits_grid g H -> derivatives M E DE TE -> derivatives M H DH TH ->
  maxwell g DE DH TE TH J K -> drives g sch J K ->
  rms g (gap (run g false st0 (map sch (seq 0 N))) (exact_state g E H N)) <=
  sqrt (2 / (1 - / sqrt kap)) * (rms g (gap st0 (exact_state g E H 0)) + INR N * dt_of g * ((sqrt emax + 3) / 8) * M * Dx ^ 2).
Proof.
  intros g E H J K DE DH TE TH sch M Dx kap emax st0 N W Hk He HD FE FH SE SH MX DR.
  assert (He1 : forall i j k, in_grid (g_shape g) i j k -> 1 <= g_eps g i j k <= emax) by (intros i j k Hin; pose proof (He i j k Hin); lra).
  pose proof (err_bound g E H J K DE DH TE TH sch M Dx emax W He1 HD FE FH SE SH MX DR st0 (fun n => sqrt (2 / (1 - / sqrt kap)))) as B. unfold sim in B.
  eapply Rle_trans; [apply B | rewrite Rsum_const'; right; field].
  - intros st n. pose proof (uniform_bound g false kap st n W Hk (fun i j k Hin => proj1 (He i j k Hin))) as G.
    assert (P : forall c i j k, in_grid (g_shape g) i j k -> 0 <= eps_t g false c i j k) by (intros; eapply eps_pos; eauto).
    unfold nst. rewrite <- sqrt_mult_alt.
    + apply sqrt_le_1_alt. exact G.
    + assert (1 < sqrt kap) by (rewrite <- sqrt_1; apply sqrt_lt_1_alt; lra). assert (/ sqrt kap < 1) by (rewrite <- Rinv_1; apply Rinv_lt_contravar; lra).
      apply Rlt_le, Rdiv_lt_0_compat; lra.
  - intro n. apply sqrt_pos.
Qed.
Lemma rms_self : forall g st, wf_grid g -> rms g (gap st st) = 0.
Proof.
  intros g st W. unfold rms. replace (field_energy g false (gap st st)) with 0; [unfold Rdiv; rewrite Rmult_0_l; apply sqrt_0 |].
  unfold field_energy, sum3, gap. cbn [f_e f_h].
  assert (Zr : forall c, rgrid_sum (g_shape g) (fun i j k => eps_t g false c i j k * Cn2 (f_e st c i j k - f_e st c i j k)%C + Cn2 (f_h st c i j k - f_h st c i j k)%C) = 0).
  { intro c. rewrite (rgrid_sum_ext _ _ (fun _ _ _ => 0)); [rewrite rgrid_sum_const; ring |]. intros. unfold Cn2. cbn [re im Csub]. ring. }
  rewrite !Zr. ring.
Qed.
Lemma convergence_free : forall g jax E H DE DH TE TH M Dx kap emax st0 N, wf_grid g -> 1 < kap -> (forall i j k, in_grid (g_shape g) i j k -> kap <= g_eps g i j k <= emax) ->
  (forall a, is_active g a = true -> g_spacing g a <= Dx) -> fits_grid g E -> fits_grid g H -> derivatives M E DE TE -> derivatives M H DH TH ->
  maxwell g DE DH TE TH (fun _ _ _ => 0) (fun _ _ _ => 0) ->
  rms g (gap (free_run g jax st0 N) (exact_state g E H N)) <=
  sqrt (2 / (1 - / sqrt kap)) * (rms g (gap st0 (exact_state g E H 0)) + INR N * dt_of g * ((sqrt emax + 3) / 8) * M * Dx ^ 2).
Proof.
  intros g jax E H DE DH TE TH M Dx kap emax st0 N W Hk He HD FE FH SE SH MX.
  pose proof (convergence g E H _ _ DE DH TE TH (fun _ => []) M Dx kap emax st0 N W Hk He HD FE FH SE SH MX (fun n c i j k _ => conj eq_refl eq_refl)) as C.
  assert (R : forall m n, map (fun _ : nat => @nil source) (seq m n) = repeat [] n) by (intros m n; revert m; induction n; intro m; [reflexivity | cbn; rewrite IHn; reflexivity]).
  rewrite R in C. destruct jax; [rewrite free_run_jax |]; exact C.
Qed.
