(** Time-harmonic runs of FDTD are FDFD solutions at the lattice frequency (C139). *)
From Coq Require Import Reals List Arith Lia Lra.
From Verif Require Import Cx Arr Model_yee Spec_yee Proof_yee Proof_yee2 Model_fdtd Spec_fdtd Proof_fdtd Proof_energy2 Model_fdfd Spec_fdfd Proof_fdfd Proof_fdfd2 Spec_sym Proof_sym Spec_harm Proof_disp.
Import ListNotations.
Local Open Scope R_scope.

Lemma Ccancel : forall c a b, c <> C0 -> (c * a)%C = (c * b)%C -> a = b.
Proof. intros c a b H E. transitivity (Cinv c * (c * a))%C; [field; auto |]. rewrite E. field; auto. Qed.
Lemma Cmul_nz : forall a b, a <> C0 -> b <> C0 -> (a * b)%C <> C0.
Proof. intros a b Ha Hb E. destruct (Cmul_integral a b E); contradiction. Qed.

Lemma Cnz1 : C1 <> C0. Proof. intro H. apply (f_equal re) in H. cbn in H. lra. Qed.
Section harm.
Variable g : fgrid.
Hypothesis W : wf_grid g.
Variables (om : R) (e h src : vfld).
Notation s := (g_shape g).
Notation dt := (dt_of g).
Notation kap := (lattice_wavenumber g om).
Hypothesis Heps : forall c i j k, in_grid s i j k -> eps_t g false c i j k <> 0.
Hypothesis HF : faraday s (g_dx g) kap e h.
Hypothesis HA : ampere s (g_dx g) kap (eps_t g false) e h src.

Lemma dt_nz : dt <> 0. Proof. pose proof (dt_pos g W). lra. Qed.

Lemma half_turn : forall x, (cis (- x) - C1)%C = (- (Ci * RtoC (2 * sin (x / 2)) * cis (- (x / 2))))%C.
Proof.
  intro x. replace (- x) with (- (x / 2) + - (x / 2)) by field. rewrite cis_add. set (y := x / 2).
  unfold cis. rewrite cos_neg, sin_neg. pose proof (sin2_cos2 y) as H. unfold Rsqr in H.
  apply C_eq; cbn [re im Csub Cmul Copp C1 Ci RtoC]; nra.
Qed.
Lemma kap_dt : kap * dt = 2 * sin (om * dt / 2). Proof. unfold lattice_wavenumber. field. exact dt_nz. Qed.

Notation at_time := (at_time om).
Lemma at_time_curl : forall o t f c i j k, curl_fn (diff_fn s (g_dx g) o) (at_time t f) c i j k = (cis (- (om * t)) * curl_fn (diff_fn s (g_dx g) o) f c i j k)%C.
Proof. intros. unfold Spec_harm.at_time. apply curl_scal. Qed.

Lemma harm_step : forall st l t, electric l ->
  (forall c i j k, in_grid s i j k -> f_e st c i j k = at_time t e c i j k) ->
  (forall c i j k, in_grid s i j k -> f_h st c i j k = at_time (t + dt / 2) h c i j k) ->
  (forall c i j k, in_grid s i j k -> current src_e l c i j k = (- (Ci * at_time (t + dt / 2) src c i j k))%C) ->
  (forall c i j k, in_grid s i j k -> f_e (step g false st l) c i j k = at_time (t + dt) e c i j k) /\
  (forall c i j k, in_grid s i j k -> f_h (step g false st l) c i j k = at_time (t + dt + dt / 2) h c i j k).
Proof.
  intros st l t Hl He Hh Hc.
  assert (E1 : forall c i j k, in_grid s i j k -> f_e (step g false st l) c i j k = at_time (t + dt) e c i j k).
  { intros c i j k Hin. rewrite step_e_val, He, Hc by auto. unfold curl_h.
    rewrite (curl_ext s (g_dx g) true (f_h st) (at_time (t + dt / 2) h)) by auto. rewrite at_time_curl, curl_bwd by auto. rewrite HA by auto.
    assert (N : RtoC (eps_t g false c i j k) <> C0) by (apply RtoC_neq0; auto).
    unfold Spec_harm.at_time. set (x := RtoC (eps_t g false c i j k)) in *.
    replace (- (om * (t + dt))) with (- (om * t) + - (om * dt)) by ring. replace (- (om * (t + dt / 2))) with (- (om * t) + - (om * dt / 2)) by field.
    rewrite !cis_add. pose proof (half_turn (om * dt)) as Q. rewrite <- kap_dt in Q. rewrite RtoC_mul in Q.
    replace (cis (- (om * dt))) with (C1 + (cis (- (om * dt)) - C1))%C by ring. rewrite Q. field. exact N. }
  split; [exact E1 |]. intros c i j k Hin. rewrite step_h_val, Hh by auto. unfold curl_e.
  rewrite (curl_ext s (g_dx g) false _ (at_time (t + dt) e)) by auto. rewrite at_time_curl, curl_fwd by auto. rewrite HF by auto.
  unfold Spec_harm.at_time.
  replace (- (om * (t + dt + dt / 2))) with (- (om * (t + dt / 2)) + - (om * dt)) by field.
  replace (- (om * (t + dt))) with (- (om * (t + dt / 2)) + - (om * dt / 2)) by field.
  rewrite !cis_add. pose proof (half_turn (om * dt)) as Q. rewrite <- kap_dt in Q. rewrite RtoC_mul in Q.
  replace (cis (- (om * dt))) with (C1 + (cis (- (om * dt)) - C1))%C by ring. rewrite Q. ring.
Qed.

Lemma harm_run : forall sch, (forall n, electric (sch n)) ->
  (forall n c i j k, in_grid s i j k -> current src_e (sch n) c i j k = (- (Ci * at_time ((INR n + 1 / 2) * dt) src c i j k))%C) ->
  forall n c i j k, in_grid s i j k ->
  let st := run g false (mkState e (at_time (dt / 2) h)) (map sch (seq 0 n)) in
  f_e st c i j k = at_time (INR n * dt) e c i j k /\ f_h st c i j k = at_time ((INR n + 1 / 2) * dt) h c i j k.
Proof.
  intros sch He Hc n.
  assert (G : (forall c i j k, in_grid s i j k -> f_e (run g false (mkState e (at_time (dt / 2) h)) (map sch (seq 0 n))) c i j k = at_time (INR n * dt) e c i j k) /\
    (forall c i j k, in_grid s i j k -> f_h (run g false (mkState e (at_time (dt / 2) h)) (map sch (seq 0 n))) c i j k = at_time (INR n * dt + dt / 2) h c i j k)).
  { induction n.
    - split; intros c i j k _; cbn [seq map run f_e f_h INR]; unfold Spec_harm.at_time.
      + replace (- (om * (0 * dt))) with 0 by ring. rewrite cis_0. ring.
      + f_equal. f_equal. ring.
    - rewrite seq_S, map_app. cbn [map]. cbn [Nat.add]. rewrite run_snoc. destruct IHn as [I1 I2]. rewrite S_INR.
      replace ((INR n + 1) * dt) with (INR n * dt + dt) by ring.
      apply harm_step; auto. intros. rewrite Hc by auto. do 3 f_equal. field. }
  destruct G as [G1 G2]. intros c i j k Hin st. split; [apply G1; auto |].
  unfold st. rewrite G2 by auto. f_equal. field.
Qed.
End harm.


Theorem cw_fdfd : forall g om solver src sch, wf_grid g ->
  (forall c i j k, in_grid (g_shape g) i j k -> eps_t g false c i j k <> 0) ->
  let d := at_wavenumber g (lattice_wavenumber g om) in
  lattice_wavenumber g om <> 0 -> exact3 d solver src -> (forall n, electric (sch n)) ->
  (forall n c i j k, in_grid (g_shape g) i j k -> current src_e (sch n) c i j k = (- (Ci * at_time om ((INR n + 1 / 2) * dt_of g) src c i j k))%C) ->
  forall n c i j k, in_grid (g_shape g) i j k ->
  let (e, h) := solve3 d solver src in
  let st := run g false (mkState e (at_time om (dt_of g / 2) h)) (map sch (seq 0 n)) in
  f_e st c i j k = at_time om (INR n * dt_of g) e c i j k /\ f_h st c i j k = at_time om ((INR n + 1 / 2) * dt_of g) h c i j k.
Proof.
  intros g om solver src sch W He d Hk Hs Hel Hc n c i j k Hin.
  pose proof (solve3_maxwell d solver src eq_refl Hk Hs) as M. destruct (solve3 d solver src) as [e h]. destruct M as [MF MA].
  exact (harm_run g W om e h src He MF MA sch Hel Hc n c i j k Hin).
Qed.

(** Conversely one step that multiplies the state by the phase factor gives Maxwell's equations of the frequency domain. *)
Theorem cw_only_fdfd : forall g om e h src l, wf_grid g ->
  (forall c i j k, in_grid (g_shape g) i j k -> eps_t g false c i j k <> 0) -> electric l ->
  (forall c i j k, in_grid (g_shape g) i j k -> current src_e l c i j k = (- (Ci * at_time om (dt_of g / 2) src c i j k))%C) ->
  let st := step g false (mkState e (at_time om (dt_of g / 2) h)) l in
  (forall c i j k, in_grid (g_shape g) i j k -> f_e st c i j k = at_time om (dt_of g) e c i j k /\ f_h st c i j k = at_time om (3 / 2 * dt_of g) h c i j k) ->
  faraday (g_shape g) (g_dx g) (lattice_wavenumber g om) e h /\ ampere (g_shape g) (g_dx g) (lattice_wavenumber g om) (eps_t g false) e h src.
Proof.
  intros g om e h src l W He Hl Hc st Hst. pose proof (half_turn (om * dt_of g)) as Q. rewrite <- (kap_dt g W) in Q. rewrite RtoC_mul in Q.
  assert (D : RtoC (dt_of g) <> C0) by (apply RtoC_neq0, dt_nz; auto).
  pose proof (cis_neq_0 (- (om * dt_of g / 2))) as Z.
  split; intros c i j k Hin.
  - destruct (Hst c i j k Hin) as [_ E]. unfold st in E. rewrite step_h_val in E by auto. fold st in E. cbn [f_h] in E. unfold curl_e in E.
    rewrite (curl_ext (g_shape g) (g_dx g) false _ (at_time om (dt_of g) e)) in E by (auto; intros; apply Hst; auto).
    rewrite at_time_curl, curl_fwd in E by auto. unfold at_time in E.
    replace (- (om * (3 / 2 * dt_of g))) with (- (om * dt_of g / 2) + - (om * dt_of g)) in E by field.
    replace (- (om * dt_of g)) with (- (om * dt_of g / 2) + - (om * dt_of g / 2)) in E at 1 by field.
    replace (- (om * (dt_of g / 2))) with (- (om * dt_of g / 2)) in E by field.
    rewrite !cis_add in E. replace (cis (- (om * dt_of g))) with (C1 + (cis (- (om * dt_of g)) - C1))%C in E by ring. rewrite Q in E.
    set (F := curl_of _ _ c i j k) in *. set (z := cis (- (om * dt_of g / 2))) in *. set (hh := h c i j k) in *.
    set (K := RtoC (lattice_wavenumber g om)) in *.
    assert (E2 : (z * z * RtoC (dt_of g) * F)%C = (z * z * RtoC (dt_of g) * (Ci * K * hh))%C).
    { replace (z * z * RtoC (dt_of g) * F)%C with (z * hh - (z * hh - z * z * F * RtoC (dt_of g)))%C by ring. rewrite E. ring. }
    apply (Ccancel (z * z * RtoC (dt_of g))%C); auto.
    repeat apply Cmul_nz; auto.
  - destruct (Hst c i j k Hin) as [E _]. unfold st in E. rewrite step_e_val, Hc in E by auto. cbn [f_e f_h] in E. unfold curl_h in E.
    rewrite at_time_curl, curl_bwd in E by auto. unfold at_time in E.
    replace (- (om * (dt_of g / 2))) with (- (om * dt_of g / 2)) in E by field.
    replace (cis (- (om * dt_of g))) with (C1 + (cis (- (om * dt_of g)) - C1))%C in E by ring. rewrite Q in E.
    assert (N : RtoC (eps_t g false c i j k) <> C0) by (apply RtoC_neq0; auto).
    set (F := curl_of _ _ c i j k) in *. set (z := cis (- (om * dt_of g / 2))) in *. set (ee := e c i j k) in *.
    set (K := RtoC (lattice_wavenumber g om)) in *. set (x := RtoC (eps_t g false c i j k)) in *. set (jj := src c i j k) in *.
    apply (Ccancel (z * RtoC (dt_of g) / x)%C); [unfold Cdiv; repeat apply Cmul_nz; auto; intro Y; apply Cnz1; rewrite <- (Cinv_l' x N), Y; ring |].
    replace (z * RtoC (dt_of g) / x * F)%C with (ee + z * F / x * RtoC (dt_of g) - - (Ci * (z * jj)) / x * RtoC (dt_of g) - ee - Ci * z * jj / x * RtoC (dt_of g))%C by (field; auto).
    rewrite E. field. auto.
Qed.

Theorem resonance : forall g jax om e h, wf_grid g ->
  (forall c i j k, in_grid (g_shape g) i j k -> eps_t g false c i j k <> 0) ->
  faraday (g_shape g) (g_dx g) (lattice_wavenumber g om) e h ->
  ampere (g_shape g) (g_dx g) (lattice_wavenumber g om) (eps_t g false) e h (fun _ _ _ _ => C0) ->
  forall n c i j k, in_grid (g_shape g) i j k ->
  let st := free_run g jax (mkState e (at_time om (dt_of g / 2) h)) n in
  f_e st c i j k = at_time om (INR n * dt_of g) e c i j k /\ f_h st c i j k = at_time om ((INR n + 1 / 2) * dt_of g) h c i j k.
Proof.
  intros g jax om e h W He MF MA n c i j k Hin.
  assert (E : free_run g jax (mkState e (at_time om (dt_of g / 2) h)) n = run g false (mkState e (at_time om (dt_of g / 2) h)) (map (fun _ => []) (seq 0 n))).
  { assert (M : map (fun _ : nat => @nil source) (seq 0 n) = repeat [] n) by (generalize 0%nat; induction n; intro a; cbn; f_equal; auto).
    rewrite M. destruct jax; [rewrite free_run_jax |]; reflexivity. }
  rewrite E. apply (harm_run g W om e h _ He MF MA (fun _ => [])); auto.
  - intro m. constructor.
  - intros m c' i' j' k' _. cbn [current]. unfold zero_vfld, Spec_harm.at_time, Model_fdtd.zero_vfld. ring.
Qed.
(** Every field is the exact solution for some source, and every source is the current of some schedule. *)
Theorem any_solution : forall d x, d_k0 d <> 0 -> exists src, exact3 d (fun _ _ => x) src.
Proof.
  intros d x Hk. exists (fun c i j k => bmatvec (dn d) (mat3 d) x c (ridx (d_shape d) i j k) / RtoC (d_k0 d))%C.
  intros c r Hr. pose proof (RtoC_neq0 _ Hk) as N. destruct (ridx_inv (d_shape d) r Hr) as (i & j & k & (Hi & Hj & Hk') & ->). rewrite ravel_ridx by auto. field. exact N.
Qed.
