(** Lemmas about splitter_metrics, te_ratio and gaussian_fn. *)
From Coq Require Import Reals List Arith Bool Lra Lia Psatz.
From Verif Require Import Cx Arr Model_metric Spec_metric Proof_metric.
Local Open Scope R_scope.

Lemma share : forall a b, 0 <= a -> 0 <= b -> a + b <> 0 -> 0 <= a / (a + b) <= 1 /\ a / (a + b) + b / (a + b) = 1.
Proof.
  intros a b Ha Hb Hs. assert (Hp : 0 < a + b) by lra. assert (E : a / (a + b) + b / (a + b) = 1) by (field; lra).
  assert (0 <= a / (a + b)) by (apply Rmult_le_pos; [lra | left; apply Rinv_0_lt_compat; lra]).
  assert (0 <= b / (a + b)) by (apply Rmult_le_pos; [lra | left; apply Rinv_0_lt_compat; lra]). split; [split; lra | exact E].
Qed.
Lemma splitter_ok : forall n a0 b0 b1 s, (a0 < n)%nat -> (b0 < n)%nat -> (b1 < n)%nat -> a0 <> b0 -> a0 <> b1 -> b0 <> b1 ->
  s b0 <> C0 \/ s b1 <> C0 ->
  exists m, splitter_metrics n a0 b0 b1 s = Some m /\ 0 <= m_reflectivity m <= 1 /\ m_reflectivity m + m_transmissivity m = 1 /\
    m_upper m = Cn2 (s b0) /\ m_lower m = Cn2 (s b1) /\ m_reflection m = Cn2 (s a0) /\
    m_reflectivity m * (m_upper m + m_lower m) = m_upper m /\ m_insertion m = total_power n s /\
    m_reflection m + m_upper m + m_lower m <= m_insertion m.
Proof.
  intros n a0 b0 b1 s H1 H2 H3 N1 N2 N3 Hs. unfold splitter_metrics.
  pose proof (Cn2_nonneg (s b0)) as P0. pose proof (Cn2_nonneg (s b1)) as P1.
  assert (Hp : Cn2 (s b0) + Cn2 (s b1) <> 0).
  { intros E. destruct Hs as [H | H]; apply H, Cn2_0; lra. }
  destruct (Req_EM_T (Cn2 (s b0) + Cn2 (s b1)) 0) as [e | _]; [contradiction |].
  eexists; split; [reflexivity |]. cbn [m_reflectivity m_transmissivity m_reflection m_insertion m_upper m_lower].
  destruct (share _ _ P0 P1 Hp) as [S1 S2]. repeat (split; [first [exact (proj1 S1) | exact (proj2 S1) | exact S1 | exact S2 | reflexivity | field; exact Hp] |]).
  set (g := fun i => (if Nat.eqb i a0 then Cn2 (s i) else 0) + ((if Nat.eqb i b0 then Cn2 (s i) else 0) + (if Nat.eqb i b1 then Cn2 (s i) else 0))).
  assert (E : Rsum n g = Cn2 (s a0) + Cn2 (s b0) + Cn2 (s b1)).
  { unfold g. rewrite Rsum_add, Rsum_add.
    rewrite (Rsum_single n (fun i => if Nat.eqb i a0 then Cn2 (s i) else 0) a0 H1) by (intros j _ Hj; rewrite (proj2 (Nat.eqb_neq _ _) Hj); reflexivity).
    rewrite (Rsum_single n (fun i => if Nat.eqb i b0 then Cn2 (s i) else 0) b0 H2) by (intros j _ Hj; rewrite (proj2 (Nat.eqb_neq _ _) Hj); reflexivity).
    rewrite (Rsum_single n (fun i => if Nat.eqb i b1 then Cn2 (s i) else 0) b1 H3) by (intros j _ Hj; rewrite (proj2 (Nat.eqb_neq _ _) Hj); reflexivity).
    rewrite !Nat.eqb_refl. ring. }
  rewrite <- E. apply Rsum_le. intros i _. unfold g. pose proof (Cn2_nonneg (s i)).
  destruct (Nat.eqb_spec i a0), (Nat.eqb_spec i b0), (Nat.eqb_spec i b1); subst; try congruence; lra.
Qed.

Lemma te_ok : forall n hx hy, total_power n hx + total_power n hy <> 0 ->
  exists a b, te_ratio 2 n hx hy = Some a /\ te_ratio 2 n hy hx = Some b /\ 0 <= a <= 1 /\ a + b = 1 /\
   a * (total_power n hx + total_power n hy) = total_power n hx /\
   (forall r, r <> 0 -> te_ratio 2 n (fun i => Cscal r (hx i)) (fun i => Cscal r (hy i)) = Some a) /\
   (a = 1 <-> forall i, (i < n)%nat -> hy i = C0) /\ (a = 0 <-> forall i, (i < n)%nat -> hx i = C0).
Proof.
  intros n hx hy H. pose proof (power_nonneg n hx) as P0. pose proof (power_nonneg n hy) as P1.
  assert (Hc : total_power n hy + total_power n hx <> 0) by lra.
  destruct (share _ _ P0 P1 H) as [S1 S2].
  assert (Z : forall x, total_power n x = 0 <-> forall i, (i < n)%nat -> x i = C0).
  { intros x; split; [intros E i Hi; apply Cn2_0; exact (Rsum_zero_terms n _ (fun j _ => Cn2_nonneg _) E i Hi) |].
    intros E. apply Rsum_0. intros i Hi. rewrite (E i Hi). unfold Cn2; cbn; ring. }
  unfold te_ratio. cbn [Nat.eqb]. cbv zeta. rewrite !norm2_sq.
  destruct (Req_EM_T (total_power n hx + total_power n hy) 0) as [e | _]; [contradiction |].
  destruct (Req_EM_T (total_power n hy + total_power n hx) 0) as [e | _]; [contradiction |].
  exists (total_power n hx / (total_power n hx + total_power n hy)), (total_power n hy / (total_power n hy + total_power n hx)).
  split; [reflexivity |]. split; [reflexivity |]. split; [exact S1 |].
  split; [rewrite (Rplus_comm (total_power n hy) (total_power n hx)); exact S2 |].
  split; [field; exact H |]. split.
  { intros r Hr. rewrite !norm2_sq, !power_scal.
    assert (0 < r ^ 2) by nra.
    destruct (Req_EM_T (r ^ 2 * total_power n hx + r ^ 2 * total_power n hy) 0) as [e | _]; [exfalso; nra |].
    f_equal. field. split; [exact H | intros e; nra]. }
  set (a := total_power n hx / (total_power n hx + total_power n hy)) in *.
  assert (Ea : a * (total_power n hx + total_power n hy) = total_power n hx) by (unfold a; field; exact H).
  split; [rewrite <- (Z hy) | rewrite <- (Z hx)]; split; intros E; nra.
Qed.

Lemma Cexp_form : forall a b d, (cis a * Cexp (Cscal d (mkC (- b) 0)))%C = Cscal (exp (- (b * d))) (cis a).
Proof.
  intros a b d. unfold Cexp. cbn [re im Cscal]. replace (d * - b) with (- (b * d)) by ring. replace (d * 0) with 0 by ring.
  apply C_eq; cbn; rewrite cos_0, sin_0; ring.
Qed.
Lemma gaussian_form : forall wl w fw start factor chirp t, 0 < w ->
  let t0 := start + w * factor in
  gaussian_fn wl w fw start factor chirp t =
    Some (if Rlt_dec start t then Cscal (exp (- (2 * PI / w * (t - t0) ^ 2))) (cis (2 * PI / wl * (t - t0) + chirp * (t - t0) ^ 2)) else C0).
Proof.
  intros wl w fw start factor chirp t Hw t0. pose proof PI_RGT_0 as HPI. unfold gaussian_fn, gauss_fwidth. destruct (Rlt_dec 0 w) as [_ | n]; [| contradiction].
  cbv zeta. unfold gauss_t0. replace (2 * PI / (2 * PI / w) * factor) with (w * factor) by (field; split; lra). fold t0.
  destruct (Rlt_dec start t) as [Ht | Ht]; [| reflexivity]. f_equal.
  unfold Cexp. cbn [re im Cscal].
  replace ((t - t0) ^ 2 * - (2 * PI / w)) with (- (2 * PI / w * (t - t0) ^ 2)) by ring.
  rewrite (Rmult_comm ((t - t0) ^ 2) chirp). apply C_eq; cbn; rewrite ?cos_plus, ?sin_plus; ring.
Qed.
Lemma Cabs_cscal_cis : forall r a, 0 <= r -> Cabs (Cscal r (cis a)) = r.
Proof.
  intros r a Hr. unfold Cabs. rewrite Cn2_scal. replace (Cn2 (cis a)) with 1.
  - rewrite Rmult_1_r, <- Rsqr_pow2. apply sqrt_Rsqr; exact Hr.
  - unfold Cn2; cbn. pose proof (sin2_cos2 a) as T; unfold Rsqr in T; lra.
Qed.
Lemma Cabs_C0 : Cabs C0 = 0.
Proof. unfold Cabs, Cn2; cbn. replace (0 * 0 + 0 * 0) with 0 by ring. apply sqrt_0. Qed.
Lemma gaussian_pulse : forall wl w fw start factor chirp, 0 < w -> 0 < factor -> let t0 := start + w * factor in
  exists g, (forall t, gaussian_fn wl w fw start factor chirp t = Some (g t)) /\
   (forall t, t <= start -> g t = C0) /\
   (forall t, start < t -> g t = Cscal (exp (- (2 * PI / w * (t - t0) ^ 2))) (cis (2 * PI / wl * (t - t0) + chirp * (t - t0) ^ 2))) /\
   (forall t, Cabs (g t) <= 1) /\ (forall t, Cabs (g t) = 1 <-> t = t0) /\
   (forall t, start < t -> t < 2 * t0 - start -> Cabs (g (2 * t0 - t)) = Cabs (g t)).
Proof.
  intros wl w fw start factor chirp Hw Hf t0. pose proof PI_RGT_0 as HPI.
  assert (Ht0 : start < t0) by (unfold t0; nra).
  exists (fun t => if Rlt_dec start t then Cscal (exp (- (2 * PI / w * (t - t0) ^ 2))) (cis (2 * PI / wl * (t - t0) + chirp * (t - t0) ^ 2)) else C0).
  assert (HA : forall t, start < t -> Cabs (if Rlt_dec start t then Cscal (exp (- (2 * PI / w * (t - t0) ^ 2))) (cis (2 * PI / wl * (t - t0) + chirp * (t - t0) ^ 2)) else C0) =
     exp (- (2 * PI / w * (t - t0) ^ 2))).
  { intros t Ht. destruct (Rlt_dec start t); [| contradiction]. apply Cabs_cscal_cis. left; apply exp_pos. }
  assert (Hpos : 0 < 2 * PI / w) by (apply Rdiv_lt_0_compat; lra).
  assert (HE : forall t, exp (- (2 * PI / w * (t - t0) ^ 2)) <= 1).
  { intros t. rewrite <- exp_0. destruct (Req_dec t t0) as [-> | N].
    - right. f_equal. ring.
    - left. apply exp_increasing. assert (0 < (t - t0) ^ 2) by nra. nra. }
  assert (HE1 : forall t, exp (- (2 * PI / w * (t - t0) ^ 2)) = 1 -> t = t0).
  { intros t E. rewrite <- exp_0 in E. apply exp_inv in E. destruct (Req_dec t t0) as [-> | N]; [reflexivity |]. exfalso.
    assert (0 < (t - t0) ^ 2) by nra. nra. }
  split; [intros t; apply gaussian_form; exact Hw |]. split.
  { intros t Ht. destruct (Rlt_dec start t); [lra | reflexivity]. } split.
  { intros t Ht. destruct (Rlt_dec start t); [reflexivity | contradiction]. } split; [| split].
  - intros t. destruct (Rlt_dec start t) as [Ht | Ht].
    + rewrite Cabs_cscal_cis by (left; apply exp_pos). apply HE.
    + rewrite Cabs_C0. lra.
  - intros t. split.
    + intros E. destruct (Rlt_dec start t) as [Ht | Ht].
      * rewrite Cabs_cscal_cis in E by (left; apply exp_pos). apply HE1; exact E.
      * rewrite Cabs_C0 in E. lra.
    + intros ->. rewrite HA by lra. rewrite <- exp_0. f_equal. ring.
  - intros t H1 H2. rewrite !HA by lra. f_equal. ring.
Qed.
(** The envelope does not scale with the pulse width. *)
Lemma gaussian_not_scaling : forall wl w c, 0 < w -> 0 < c -> c <> 1 ->
  let t0 := 5 * w in exists z z', gaussian_fn wl w None 0 5 0 (t0 + w) = Some z /\ gaussian_fn (c * wl) (c * w) None 0 5 0 (c * (t0 + w)) = Some z' /\ Cabs z <> Cabs z'.
Proof.
  intros wl w c Hw Hc Hc1 t0. assert (Hcw : 0 < c * w) by nra.
  rewrite (gaussian_form wl w None 0 5 0 (t0 + w) Hw), (gaussian_form (c * wl) (c * w) None 0 5 0 (c * (t0 + w)) Hcw).
  do 2 eexists. split; [reflexivity |]. split; [reflexivity |].
  destruct (Rlt_dec 0 (t0 + w)) as [_ | n]; [| unfold t0 in n; lra].
  destruct (Rlt_dec 0 (c * (t0 + w))) as [_ | n]; [| unfold t0 in n; nra].
  rewrite !Cabs_cscal_cis by (left; apply exp_pos). intros E. apply exp_inv in E. pose proof PI_RGT_0.
  replace (2 * PI / w * (t0 + w - (0 + w * 5)) ^ 2) with (2 * PI * w) in E by (unfold t0; field; lra).
  replace (2 * PI / (c * w) * (c * (t0 + w) - (0 + c * w * 5)) ^ 2) with (2 * PI * c * w) in E by (unfold t0; field; split; lra).
  assert (H0 : (c - 1) * (PI * w) = 0) by lra. apply Rmult_integral in H0. destruct H0 as [H0 | H0]; [lra | nra].
Qed.
(** For a short pulse the source jumps on at start_time to an amplitude as close to its peak as one likes. *)
Lemma gaussian_jump : forall wl w, 0 < w -> forall t, 0 < t -> t <= 5 * w -> exists z, gaussian_fn wl w None 0 5 0 t = Some z /\ exp (- (50 * PI * w)) <= Cabs z.
Proof.
  intros wl w Hw t H1 H2. rewrite (gaussian_form wl w None 0 5 0 t Hw). eexists; split; [reflexivity |].
  destruct (Rlt_dec 0 t); [| contradiction]. rewrite Cabs_cscal_cis by (left; apply exp_pos). pose proof PI_RGT_0.
  assert (HB : 2 * PI / w * (t - (0 + w * 5)) ^ 2 <= 50 * PI * w).
  { replace (50 * PI * w) with (2 * PI / w * (25 * w ^ 2)) by (field; lra). apply Rmult_le_compat_l; [left; apply Rdiv_lt_0_compat; lra | nra]. }
  destruct (Rle_lt_or_eq_dec _ _ HB) as [HB' | HB']; [left; apply exp_increasing; lra | rewrite HB'; right; reflexivity].
Qed.
