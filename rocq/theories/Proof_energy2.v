(** Energy conservation, positivity and growth bounds. *)
From Coq Require Import Reals Lra Lia Psatz List Arith Bool FunctionalExtensionality.
From Verif Require Import Cx Arr Model_yee Spec_yee Proof_yee Proof_yee2 Model_fdtd Spec_fdtd Proof_fdtd Proof_energy.
Import ListNotations.
Local Open Scope R_scope.

(** Averaging keeps bounds. *)
Lemma avg_axis_bounds : forall s a p lo hi, (forall i j k, in_grid s i j k -> lo <= p i j k <= hi) ->
  forall i j k, in_grid s i j k -> lo <= avg_axis s a p i j k <= hi.
Proof.
  intros s a p lo hi H i j k Hin. unfold avg_axis, ralong. pose proof (H i j k Hin) as H1. destruct Hin as (Hi & Hj & Hk).
  destruct a.
  - pose proof (H (prv (s AX) i) j k) as H2. destruct H2; [split; [| split]; auto using prv_bound | lra].
  - pose proof (H i (prv (s AY) j) k) as H2. destruct H2; [split; [| split]; auto using prv_bound | lra].
  - pose proof (H i j (prv (s AZ) k)) as H2. destruct H2; [split; [| split]; auto using prv_bound | lra].
Qed.
Lemma yee_avg_bounds : forall s p lo hi, (forall i j k, in_grid s i j k -> lo <= p i j k <= hi) ->
  forall c i j k, in_grid s i j k -> lo <= yee_avg s p c i j k <= hi.
Proof.
  intros s p lo hi H c i j k Hin. destruct c; unfold yee_avg.
  - apply avg_axis_bounds; auto.
  - apply avg_axis_bounds; auto.
  - apply avg_axis_bounds; auto. intros. apply avg_axis_bounds; auto.
Qed.
Lemma avg_axis_lower : forall s a p lo, (forall i j k, in_grid s i j k -> lo <= p i j k) ->
  forall i j k, in_grid s i j k -> lo <= avg_axis s a p i j k.
Proof.
  intros s a p lo H i j k Hin. unfold avg_axis, ralong. pose proof (H i j k Hin) as H1. destruct Hin as (Hi & Hj & Hk).
  destruct a.
  - assert (H2 : lo <= p (prv (s AX) i) j k) by (apply H; split; [| split]; auto using prv_bound). lra.
  - assert (H2 : lo <= p i (prv (s AY) j) k) by (apply H; split; [| split]; auto using prv_bound). lra.
  - assert (H2 : lo <= p i j (prv (s AZ) k)) by (apply H; split; [| split]; auto using prv_bound). lra.
Qed.
Lemma eps_t_lower : forall g jax lo, (forall i j k, in_grid (g_shape g) i j k -> lo <= g_eps g i j k) ->
  forall c i j k, in_grid (g_shape g) i j k -> lo <= eps_t g jax c i j k.
Proof.
  intros g jax lo H c i j k Hin.
  replace (eps_t g jax c i j k) with (yee_avg (g_shape g) (g_eps g) c i j k) by (destruct jax, c; reflexivity).
  destruct c; unfold yee_avg.
  - apply avg_axis_lower; auto.
  - apply avg_axis_lower; auto.
  - apply avg_axis_lower; auto. intros. apply avg_axis_lower; auto.
Qed.

Lemma Rabs_le_inv' : forall a b, Rabs a <= b -> - b <= a <= b.
Proof. intros a b H. unfold Rabs in H. destruct (Rcase_abs a); lra. Qed.
Lemma Rabs_m1 : Rabs (-1) = 1.
Proof. rewrite Rabs_left; lra. Qed.
Section Energy.
Variable g : fgrid.
Variable jax : bool.
Let s := g_shape g.
Let dt := dt_of g.
Hypothesis Hnz : eps_nonzero g jax.

Definition Qe (e : vfld) : R := rin (g_shape g) (displacement g jax e) e.
Definition WW (st : fstate) : R :=
  Qe (f_e st) + rin (g_shape g) (f_h st) (f_h st) + dt_of g * rin (g_shape g) (f_h st) (curl_e g (f_e st)).

Lemma disp_sym : forall e f, rin s (displacement g jax e) f = rin s (displacement g jax f) e.
Proof.
  intros. rewrite (rin_sym s (displacement g jax f) e). rewrite !rin_split. unfold sin_, inner, displacement.
  f_equal; [f_equal |]; f_equal; apply grid_sum_ext; intros; rewrite Cconj_mul, Cconj_RtoC; ring.
Qed.
Lemma Qe_value : forall e, Qe e = sum3 (fun c => rgrid_sum s (fun i j k => eps_t g jax c i j k * Cn2 (e c i j k))).
Proof.
  intros. unfold Qe. fold s. rewrite rin_split. unfold sum3, sin_, inner. rewrite !re_grid_sum.
  f_equal; [f_equal |]; apply rgrid_sum_ext; intros; unfold displacement, Cn2; cbn [re im Cmul RtoC Cconj]; ring.
Qed.
Lemma rin_value : forall f h, rin s f h = sum3 (fun c => rgrid_sum s (fun i j k => re (f c i j k * Cconj (h c i j k))%C)).
Proof. intros. rewrite rin_split. unfold sum3, sin_, inner. rewrite !re_grid_sum. reflexivity. Qed.
Lemma energy_value : forall st, field_energy g jax st = Qe (f_e st) + rin s (f_h st) (f_h st).
Proof.
  intros. rewrite Qe_value, rin_value. unfold field_energy, sum3. fold s. rewrite !rgrid_sum_add.
  assert (E : forall c, rgrid_sum s (fun i j k => Cn2 (f_h st c i j k)) =
                        rgrid_sum s (fun i j k => re (f_h st c i j k * Cconj (f_h st c i j k))%C)).
  { intro c. apply rgrid_sum_ext; intros. rewrite Cmul_conj. reflexivity. }
  rewrite !E. ring.
Qed.

Lemma step_h_eq : forall st, f_h (step g jax st []) = vadd (f_h st) (vscal (- dt) (curl_e g (f_e (step g jax st [])))).
Proof.
  intros. apply same_eq. intros c i j k. unfold step, step_h, vadd, vscal, dt. cbn [fold_left f_h f_e].
  rewrite RtoC_opp. ring.
Qed.
Lemma step_disp : forall st c i j k, in_grid s i j k ->
  displacement g jax (f_e (step g jax st [])) c i j k =
  vadd (displacement g jax (f_e st)) (vscal dt (curl_h g (f_h st))) c i j k.
Proof.
  intros st c i j k Hin. unfold step, step_e, displacement, vadd, vscal, dt. cbn [fold_left f_e].
  pose proof (RtoC_neq0 _ (Hnz c i j k Hin)). field. auto.
Qed.
Lemma rin_ext_l : forall f f' h, (forall c i j k, in_grid s i j k -> f c i j k = f' c i j k) -> rin s f h = rin s f' h.
Proof. intros. apply rin_ext; auto. Qed.

Lemma WW_step : forall st, WW (step g jax st []) = WW st.
Proof.
  intros st. set (st' := step g jax st []). set (e0 := f_e st). set (h0 := f_h st). set (e1 := f_e st').
  assert (Eh : f_h st' = vadd h0 (vscal (- dt) (curl_e g e1))) by apply step_h_eq.
  unfold WW. fold s dt e0 h0 e1. rewrite Eh.
  set (K := curl_e g e1).
  assert (Q1 : Qe e1 = Qe e0 + dt * rin s (curl_h g h0) e0 + dt * rin s (curl_h g h0) e1).
  { assert (E1 : forall f, rin s (displacement g jax e1) f = rin s (displacement g jax e0) f + dt * rin s (curl_h g h0) f).
    { intro f. rewrite <- rin_scal_l, <- rin_add_l. apply rin_ext_l. intros. unfold e1, e0, h0, st'. apply step_disp; auto. }
    unfold Qe. fold s. rewrite E1. rewrite (disp_sym e0 e1), E1. ring. }
  rewrite Q1. rewrite (rin_sym s (curl_h g h0) e0), (rin_sym s (curl_h g h0) e1).
  unfold s. rewrite <- !curl_rin. fold s. fold K.
  rewrite !rin_add_l, !rin_add_r, !rin_scal_l, !rin_scal_r.
  rewrite (rin_sym s (curl_e g e0) h0), (rin_sym s K h0). ring.
Qed.
Lemma WW_run : forall st n, WW (free_run g jax st n) = WW st.
Proof. intros st n. induction n; [reflexivity |]. rewrite free_run_S, WW_step. auto. Qed.

Lemma leapfrog_WW : forall st, leapfrog_energy g jax st (step g jax st []) = WW (step g jax st []).
Proof.
  intros st. unfold WW. set (st' := step g jax st []).
  assert (E0 : f_h st = vadd (f_h st') (vscal dt (curl_e g (f_e st')))).
  { apply same_eq. intros c i j k. unfold st'. rewrite step_h_eq. unfold vadd, vscal. rewrite RtoC_opp. ring. }
  assert (E : leapfrog_energy g jax st st' = Qe (f_e st') + rin s (f_h st') (f_h st)).
  { rewrite Qe_value, rin_value. unfold leapfrog_energy, sum3. fold s. rewrite !rgrid_sum_add. ring. }
  rewrite E. rewrite E0 at 1. fold s dt. rewrite rin_add_r, rin_scal_r. ring.
Qed.

(** *** Bounds *)
Hypothesis Hwf : wf_grid g.

Lemma inv_sum_pos : 0 < inv_sq g AX + inv_sq g AY + inv_sq g AZ.
Proof.
  destruct Hwf as (Hn & _ & Hs & _).
  assert (Hnn : forall a, 0 <= inv_sq g a).
  { intro a. unfold inv_sq. destruct (is_active g a) eqn:E; [| lra]. pose proof (Hs a E). left. apply Rinv_0_lt_compat. nra. }
  assert (Hx : 0 < inv_sq g AX).
  { unfold inv_sq. assert (E : is_active g AX = true) by (unfold is_active; apply Nat.ltb_lt; simpl; lia). rewrite E.
    pose proof (Hs AX E). apply Rinv_0_lt_compat. nra. }
  pose proof (Hnn AY); pose proof (Hnn AZ). lra.
Qed.
Lemma dt_sq : dt * dt * (inv_sq g AX + inv_sq g AY + inv_sq g AZ) = 1.
Proof.
  pose proof inv_sum_pos as H. unfold dt, dt_of. set (q := inv_sq g AX + inv_sq g AY + inv_sq g AZ) in *.
  pose proof (sqrt_lt_R0 q H). pose proof (sqrt_sqrt q ltac:(lra)) as E.
  rewrite <- E at 3. field. lra.
Qed.
Lemma dt_pos : 0 < dt.
Proof.
  pose proof inv_sum_pos as H. unfold dt, dt_of. apply Rdiv_lt_0_compat; [lra |]. apply sqrt_lt_R0; auto.
Qed.
Lemma dt_curl_norm : forall e, dt * nrm s (curl_e g e) <= 2 * nrm s e.
Proof.
  intros e. pose proof (nrm_pos s e). apply sq_le_le; [lra |].
  replace (dt * nrm s (curl_e g e) * (dt * nrm s (curl_e g e))) with (dt * dt * (nrm s (curl_e g e) * nrm s (curl_e g e))) by ring.
  rewrite nrm_sq. pose proof (curl_norm g e Hwf) as Hc. fold s in Hc.
  replace (2 * nrm s e * (2 * nrm s e)) with (4 * (nrm s e * nrm s e)) by ring. rewrite nrm_sq.
  apply Rle_trans with (dt * dt * (4 * (inv_sq g AX + inv_sq g AY + inv_sq g AZ) * rin s e e)).
  - apply Rmult_le_compat_l; [pose proof dt_pos; nra | auto].
  - right. transitivity (4 * (dt * dt * (inv_sq g AX + inv_sq g AY + inv_sq g AZ)) * rin s e e); [ring |]. rewrite dt_sq. ring.
Qed.

Variable kap : R.
Hypothesis Hkap : 1 <= kap.
Hypothesis Heps : forall c i j k, in_grid s i j k -> kap <= eps_t g jax c i j k.

Lemma Qe_lower : forall e, kap * (nrm s e * nrm s e) <= Qe e.
Proof.
  intros. rewrite nrm_sq, Qe_value, rin_value. unfold sum3.
  assert (H : forall c, kap * rgrid_sum s (fun i j k => re (e c i j k * Cconj (e c i j k))%C) <=
                        rgrid_sum s (fun i j k => eps_t g jax c i j k * Cn2 (e c i j k))).
  { intro c. rewrite <- rgrid_sum_scal. apply rgrid_sum_le; intros i j k Hin. rewrite Cmul_conj. cbn [re RtoC].
    apply Rmult_le_compat_r; [apply Cn2_nonneg | auto]. }
  pose proof (H AX); pose proof (H AY); pose proof (H AZ). lra.
Qed.
Lemma cross_bound : forall h e, Rabs (dt * rin s h (curl_e g e)) <= 2 * nrm s h * nrm s e.
Proof.
  intros. pose proof (rin_le_nrm s h (curl_e g e)) as H1.
  pose proof (rin_le_nrm s (vscal (- 1) h) (curl_e g e)) as H2. rewrite nrm_scal, rin_scal_l in H2.
  rewrite Rabs_m1 in H2.
  pose proof (dt_curl_norm e). pose proof dt_pos. pose proof (nrm_pos s h).
  assert (nrm s h * (dt * nrm s (curl_e g e)) <= nrm s h * (2 * nrm s e)) by (apply Rmult_le_compat_l; auto).
  apply Rabs_le. split.
  - assert (dt * (- rin s h (curl_e g e)) <= dt * (nrm s h * nrm s (curl_e g e))) by (apply Rmult_le_compat_l; lra). lra.
  - assert (dt * rin s h (curl_e g e) <= dt * (nrm s h * nrm s (curl_e g e))) by (apply Rmult_le_compat_l; lra). lra.
Qed.
Lemma energy_nonneg : forall st, 0 <= field_energy g jax st.
Proof.
  intros. rewrite energy_value. pose proof (rin_pos s (f_h st)). pose proof (Qe_lower (f_e st)).
  pose proof (nrm_pos s (f_e st)). nra.
Qed.
Lemma cross_le_energy : forall st,
  Rabs (dt * rin s (f_h st) (curl_e g (f_e st))) <= / sqrt kap * field_energy g jax st.
Proof.
  intros st. pose proof (cross_bound (f_h st) (f_e st)) as H. eapply Rle_trans; [exact H |].
  rewrite energy_value. pose proof (Qe_lower (f_e st)) as HQ. rewrite <- nrm_sq.
  set (x := nrm s (f_h st)) in *. set (y := nrm s (f_e st)) in *.
  assert (Hk : 0 < sqrt kap) by (apply sqrt_lt_R0; lra). pose proof (sqrt_sqrt kap ltac:(lra)) as Ek.
  set (q := sqrt kap) in *. apply Rmult_le_reg_l with q; auto.
  replace (q * (/ q * (Qe (f_e st) + x * x))) with (Qe (f_e st) + x * x) by (field; lra).
  assert (0 <= (x - q * y) * (x - q * y)) by apply Rle_0_sqr.
  rewrite <- Ek in HQ. nra.
Qed.
Lemma WW_lower : forall st, (1 - / sqrt kap) * field_energy g jax st <= WW st.
Proof.
  intros st. pose proof (cross_le_energy st) as H. unfold WW. fold s dt. pose proof (energy_value st) as E.
  apply Rabs_le_inv' in H. destruct H as [H _]. lra.
Qed.
Lemma inv_sqrt_kap : 0 < / sqrt kap <= 1.
Proof.
  assert (1 <= sqrt kap) by (rewrite <- sqrt_1; apply sqrt_le_1_alt; auto).
  split; [apply Rinv_0_lt_compat; lra |]. rewrite <- Rinv_1. apply Rinv_le_contravar; lra.
Qed.
Lemma WW_upper : forall st, WW st <= 2 * field_energy g jax st.
Proof.
  intros st. pose proof (cross_le_energy st) as H. unfold WW. fold s dt. pose proof (energy_value st) as E.
  pose proof inv_sqrt_kap. pose proof (energy_nonneg st). apply Rabs_le_inv' in H. destruct H as [_ H].
  assert (/ sqrt kap * field_energy g jax st <= 1 * field_energy g jax st) by (apply Rmult_le_compat_r; lra). lra.
Qed.
Lemma WW_nonneg : forall st, 0 <= WW st.
Proof.
  intros st. pose proof (WW_lower st). pose proof inv_sqrt_kap. pose proof (energy_nonneg st). nra.
Qed.
(** Uniform bound when kap > 1. *)
Lemma energy_bounded : forall st n, (1 - / sqrt kap) * field_energy g jax (free_run g jax st n) <= 2 * field_energy g jax st.
Proof.
  intros. eapply Rle_trans; [apply WW_lower |]. rewrite WW_run. apply WW_upper.
Qed.

(** *** At most linear growth of the fields for kap = 1. *)
Definition qv (st : fstate) : vfld := vscal (dt_of g / 2) (curl_e g (f_e st)).
Definition ht (st : fstate) : vfld := vadd (f_h st) (qv st).
Lemma qv_le : forall st, nrm s (qv st) * nrm s (qv st) <= Qe (f_e st).
Proof.
  intros st. unfold qv. rewrite nrm_scal. fold dt. pose proof dt_pos as Hd. rewrite Rabs_right by lra.
  pose proof (dt_curl_norm (f_e st)) as H. pose proof (Qe_lower (f_e st)). pose proof (nrm_pos s (f_e st)).
  pose proof (nrm_pos s (curl_e g (f_e st))).
  assert (dt / 2 * nrm s (curl_e g (f_e st)) <= nrm s (f_e st)) by lra.
  assert (0 <= dt / 2 * nrm s (curl_e g (f_e st))) by nra.
  assert (dt / 2 * nrm s (curl_e g (f_e st)) * (dt / 2 * nrm s (curl_e g (f_e st))) <= nrm s (f_e st) * nrm s (f_e st)) by nra.
  nra.
Qed.
Lemma WW_split : forall st, WW st = (Qe (f_e st) - nrm s (qv st) * nrm s (qv st)) + nrm s (ht st) * nrm s (ht st).
Proof.
  intros st. rewrite !nrm_sq. unfold ht. rewrite rin_add_l, !rin_add_r. unfold qv. fold dt.
  rewrite !rin_scal_l, !rin_scal_r. unfold WW. fold s dt. rewrite (rin_sym s (curl_e g (f_e st)) (f_h st)). field.
Qed.
Lemma ht_le : forall st, nrm s (ht st) <= sqrt (WW st).
Proof.
  intros st. apply sq_le_le; [apply sqrt_pos |]. rewrite sqrt_sqrt by apply WW_nonneg. rewrite WW_split.
  pose proof (qv_le st). lra.
Qed.
Lemma Qe_le : forall st, Qe (f_e st) <= WW st + nrm s (qv st) * nrm s (qv st).
Proof. intros st. rewrite WW_split. pose proof (nrm_pos s (ht st)). nra. Qed.
Lemma qv_step : forall st, nrm s (qv (step g jax st [])) <= nrm s (qv st) + 2 * sqrt (WW st).
Proof.
  intros st. set (st' := step g jax st []).
  assert (E : qv st' = vadd (vadd (ht st) (vscal (- 1) (ht st'))) (vscal (- 1) (qv st))).
  { apply same_eq. intros c i j k. unfold ht, vadd, vscal. unfold st' at 2. rewrite step_h_eq. fold st'.
    unfold qv, vadd, vscal. fold dt. apply C_eq; cbn [re im Cadd Cmul RtoC]; field. }
  rewrite E. eapply Rle_trans; [apply nrm_triangle |].
  pose proof (nrm_triangle s (ht st) (vscal (-1) (ht st'))) as Ht.
  rewrite !nrm_scal in *. rewrite Rabs_m1 in *.
  pose proof (ht_le st). pose proof (ht_le st') as H'. unfold st' in H'. rewrite WW_step in H'. fold st' in H'. lra.
Qed.
Lemma qv_run : forall st n, nrm s (qv (free_run g jax st n)) <= nrm s (qv st) + 2 * INR n * sqrt (WW st).
Proof.
  intros st n. induction n as [| n IH]; [simpl; unfold free_run; simpl; lra |].
  rewrite free_run_S, S_INR. pose proof (qv_step (free_run g jax st n)) as H. rewrite WW_run in H. lra.
Qed.
Lemma energy_growth : forall st n,
  field_energy g jax (free_run g jax st n) <= 16 * ((INR n + 1) * (INR n + 1)) * field_energy g jax st.
Proof.
  intros st n. set (stn := free_run g jax st n). set (T := field_energy g jax st).
  assert (HT : 0 <= T) by apply energy_nonneg.
  set (w := sqrt (WW st)). assert (Hw0 : 0 <= w) by apply sqrt_pos.
  assert (Hw : w * w = WW st) by (apply sqrt_sqrt, WW_nonneg).
  set (a := sqrt (2 * T)). assert (Ha0 : 0 <= a) by apply sqrt_pos. assert (Ha : a * a = 2 * T) by (apply sqrt_sqrt; lra).
  assert (Hwa : w <= a) by (apply sq_le_le; auto; rewrite Hw, Ha; apply WW_upper).
  assert (Hq0 : nrm s (qv st) <= a).
  { apply sq_le_le; auto. rewrite Ha. pose proof (qv_le st). unfold T. rewrite energy_value. pose proof (rin_pos s (f_h st)).
    pose proof (nrm_pos s (qv st)). nra. }
  pose proof (qv_run st n) as Hq. fold stn in Hq. fold w in Hq.
  pose proof (pos_INR n) as Hn. set (N := INR n) in *.
  assert (Hq1 : nrm s (qv stn) <= a * (1 + 2 * N)) by nra.
  pose proof (nrm_pos s (qv stn)) as Hqp.
  assert (HQ : Qe (f_e stn) <= a * a + (a * (1 + 2 * N)) * (a * (1 + 2 * N))).
  { pose proof (Qe_le stn) as H. unfold stn in H at 2. rewrite WW_run, <- Hw in H. nra. }
  assert (Hh : nrm s (f_h stn) <= a * (2 + 2 * N)).
  { assert (E : f_h stn = vadd (ht stn) (vscal (-1) (qv stn))).
    { apply same_eq. intros c i j k. unfold ht, vadd, vscal. apply C_eq; cbn [re im Cadd Cmul RtoC]; ring. }
    rewrite E. eapply Rle_trans; [apply nrm_triangle |]. rewrite nrm_scal, Rabs_m1.
    pose proof (ht_le stn) as H. unfold stn in H at 2. rewrite WW_run in H. fold w in H. lra. }
  pose proof (nrm_pos s (f_h stn)) as Hhp.
  rewrite energy_value. rewrite <- nrm_sq.
  assert (nrm s (f_h stn) * nrm s (f_h stn) <= (a * (2 + 2 * N)) * (a * (2 + 2 * N))) by nra.
  apply Rle_trans with (a * a * (1 + (1 + 2 * N) * (1 + 2 * N) + (2 + 2 * N) * (2 + 2 * N))); [nra |].
  rewrite Ha. nra.
Qed.
End Energy.
