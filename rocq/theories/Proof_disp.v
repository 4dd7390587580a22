(** Numerical dispersion: plane waves are the modes of the periodic FDTD grid. *)
From Coq Require Import Reals Lra Lia List Arith Bool FunctionalExtensionality.
From Verif Require Import Cx Arr Model_yee Spec_yee Proof_yee Proof_yee2 Model_fdtd Spec_fdtd Proof_fdtd Spec_sym Proof_sym Proof_energy Proof_energy2 Spec_disp.
Import ListNotations.
Local Open Scope R_scope.

Lemma cis_turns : forall n k, (0 < n)%nat -> cis (2 * PI * INR k / INR n * INR n) = C1.
Proof.
  intros n k H. assert (0 < INR n) by (apply lt_0_INR; auto). replace (2 * PI * INR k / INR n * INR n) with (0 + 2 * PI * IZR (Z.of_nat k)).
  - rewrite cis_period. apply cis_0.
  - rewrite <- INR_IZR_INZ. field. lra.
Qed.
Lemma cis_wrap : forall n k i, (0 < n)%nat -> cis (2 * PI * INR k / INR n * INR (i mod n)) = cis (2 * PI * INR k / INR n * INR i).
Proof.
  intros n k i H. assert (0 < INR n) by (apply lt_0_INR; auto). rewrite (Nat.div_mod_eq i n) at 2. rewrite plus_INR, mult_INR.
  replace (2 * PI * INR k / INR n * (INR n * INR (i / n) + INR (i mod n))) with
    (2 * PI * INR k / INR n * INR (i mod n) + 2 * PI * IZR (Z.of_nat (k * (i / n)))).
  - rewrite cis_period. reflexivity.
  - rewrite <- INR_IZR_INZ, mult_INR. field. lra.
Qed.
Section Plane.
Variables (g : fgrid) (m : axis -> nat) (jax : bool).
Hypothesis Hw : wf_grid g.
Let s := g_shape g.
Let th := per_cell s m.
Let w := plane s m.
Lemma pos_s : forall a, (0 < s a)%nat. Proof. intro a. apply Hw. Qed.
Lemma cis_nxt : forall a i, cis (th a * INR (nxt (s a) i)) = (cis (th a) * cis (th a * INR i))%C.
Proof.
  intros a i. unfold th, per_cell, nxt. rewrite cis_wrap by apply pos_s. rewrite <- cis_add. f_equal. rewrite plus_INR. simpl (INR 1). ring.
Qed.
Lemma cis_prv : forall a i, cis (th a * INR (prv (s a) i)) = (cis (- th a) * cis (th a * INR i))%C.
Proof.
  intros a i. pose proof (pos_s a). unfold th, per_cell, prv. rewrite cis_wrap by apply pos_s. rewrite <- cis_add.
  replace (i + s a - 1)%nat with (i + (s a - 1))%nat by lia. rewrite plus_INR, minus_INR by lia. simpl (INR 1).
  replace (2 * PI * INR (m a) / INR (s a) * (INR i + (INR (s a) - 1))) with
    ((- (2 * PI * INR (m a) / INR (s a)) + 2 * PI * INR (m a) / INR (s a) * INR i) + 2 * PI * INR (m a) / INR (s a) * INR (s a)) by ring.
  rewrite cis_add. rewrite cis_turns by auto. ring.
Qed.
Lemma w_roll_m : forall a A i j k, roll_m1 s a (fun i j k => A * w i j k)%C i j k = (cis (th a) * (A * w i j k))%C.
Proof.
  intros. unfold roll_m1, along, w, plane. fold th. destruct a; rewrite !cis_add, cis_nxt; ring.
Qed.
Lemma w_roll_p : forall a A i j k, roll_p1 s a (fun i j k => A * w i j k)%C i j k = (cis (- th a) * (A * w i j k))%C.
Proof.
  intros. unfold roll_p1, along, w, plane. fold th. destruct a; rewrite !cis_add, cis_prv; ring.
Qed.
Definition sp (a : axis) : R := if is_active g a then g_spacing g a else 1.
Lemma sp_pos : forall a, 0 < sp a.
Proof. intro a. unfold sp. destruct (is_active g a) eqn:E; [apply Hw; auto | lra]. Qed.
Definition pp (a : axis) : C := ((cis (th a) - C1) * RtoC (/ sp a))%C.
Definition qq (a : axis) : C := ((C1 - cis (- th a)) * RtoC (/ sp a))%C.
Lemma dx_val : forall a n, Cinv (g_dx g a n) = RtoC (/ sp a).
Proof. intros. pose proof (sp_pos a). unfold g_dx, uniform_dx. fold (sp a). rewrite RtoC_inv by lra. reflexivity. Qed.
Lemma diff_f : forall A a i j k, diff_fn s (g_dx g) false (fun i j k => A * w i j k)%C a i j k = (pp a * A * w i j k)%C.
Proof. intros. unfold diff_fn, Cdiv. rewrite w_roll_m, dx_val. unfold pp. ring. Qed.
Lemma diff_b : forall A a i j k, diff_fn s (g_dx g) true (fun i j k => A * w i j k)%C a i j k = (qq a * A * w i j k)%C.
Proof. intros. unfold diff_fn, Cdiv. rewrite w_roll_p, dx_val. unfold qq. ring. Qed.
Definition cross (p A : axis -> C) : axis -> C := fun c => match c with
  | AX => (p AY * A AZ - p AZ * A AY)%C | AY => (p AZ * A AX - p AX * A AZ)%C | AZ => (p AX * A AY - p AY * A AX)%C end.
Lemma curl_e_w : forall A c i j k, curl_e g (times A w) c i j k = (cross pp A c * w i j k)%C.
Proof. intros. unfold curl_e, curl_fn, times. fold s. destruct c; rewrite !diff_f; unfold cross; ring. Qed.
Lemma curl_h_w : forall A c i j k, curl_h g (times A w) c i j k = (cross qq A c * w i j k)%C.
Proof. intros. unfold curl_h, curl_fn, times. fold s. destruct c; rewrite !diff_b; unfold cross; ring. Qed.
(** axes of one cell *)
Lemma inactive_th : forall a, is_active g a = false -> cis (th a) = C1 /\ sin (th a / 2) = 0.
Proof.
  intros a E. assert (E1 : s a = 1%nat) by (apply Hw; auto). unfold th, per_cell. rewrite E1. simpl (INR 1). split.
  - replace (2 * PI * INR (m a) / 1) with (0 + 2 * PI * IZR (Z.of_nat (m a))) by (rewrite <- INR_IZR_INZ; field). rewrite cis_period. apply cis_0.
  - replace (2 * PI * INR (m a) / 1 / 2) with (INR (m a) * PI) by field. apply sin_eq_0_1. exists (Z.of_nat (m a)). rewrite <- INR_IZR_INZ. reflexivity.
Qed.
Lemma pq : forall a, (qq a * pp a)%C = RtoC (- (2 * sin (th a / 2) / g_spacing g a) ^ 2).
Proof.
  intro a. unfold qq, pp. rewrite cis_opp. unfold sp. destruct (is_active g a) eqn:E.
  - assert (0 < g_spacing g a) by (apply Hw; auto). rewrite <- (RtoC_mul) || idtac.
    replace ((C1 - Cconj (cis (th a))) * RtoC (/ g_spacing g a) * ((cis (th a) - C1) * RtoC (/ g_spacing g a)))%C with
      ((cis (th a) + Cconj (cis (th a)) - C1 - Cconj (cis (th a)) * cis (th a)) * RtoC (/ g_spacing g a * / g_spacing g a))%C by (rewrite RtoC_mul; ring).
    rewrite cis_conj_l. replace (cis (th a) + Cconj (cis (th a)) - C1 - C1)%C with (RtoC (2 * cos (th a) - 2)) by (apply C_eq; cbn [re im RtoC Csub Cadd C1 cis Cconj Copp]; ring).
    rewrite <- RtoC_mul. f_equal. replace (cos (th a)) with (1 - 2 * sin (th a / 2) * sin (th a / 2)).
    + field. lra.
    + rewrite <- cos_2a_sin. f_equal. lra.
  - destruct (inactive_th a E) as (H1 & H2). rewrite H1, H2. rewrite <- RtoC_0 || idtac. apply C_eq; unfold Rdiv; cbn [re im RtoC Csub Cmul Cadd Copp C1 C0 Cconj]; ring.
Qed.
Lemma pq_sum : (qq AX * pp AX + qq AY * pp AY + qq AZ * pp AZ)%C = RtoC (- lattice_k2 g m).
Proof. rewrite !pq. unfold lattice_k2, sum3. fold s. fold th. rewrite <- !RtoC_add. f_equal. ring. Qed.
Lemma trans_q : forall E, transverse g m E -> (qq AX * E AX + qq AY * E AY + qq AZ * E AZ)%C = C0.
Proof.
  intros E H. unfold transverse in H. fold s th in H. cbv zeta in H. rewrite <- H.
  assert (Q : forall a, ((C1 - cis (- th a)) / RtoC (g_spacing g a) * E a)%C = (qq a * E a)%C).
  { intro a. unfold qq, sp. destruct (is_active g a) eqn:A.
    - assert (0 < g_spacing g a) by (apply Hw; auto). rewrite RtoC_inv by lra. unfold Cdiv. ring.
    - destruct (inactive_th a A) as (H1 & _). rewrite cis_opp, H1. unfold Cdiv. replace (C1 - Cconj C1)%C with C0 by (apply C_eq; cbn; ring). ring. }
  rewrite !Q. reflexivity.
Qed.
Lemma double_cross : forall E c, transverse g m E -> cross qq (cross pp E) c = (RtoC (lattice_k2 g m) * E c)%C.
Proof.
  intros E c H. pose proof (trans_q E H) as T. pose proof pq_sum as P. rewrite RtoC_opp in P.
  assert (K : RtoC (lattice_k2 g m) = (- (qq AX * pp AX + qq AY * pp AY + qq AZ * pp AZ))%C) by (rewrite P; ring). rewrite K.
  assert (G : cross qq (cross pp E) c = (pp c * (qq AX * E AX + qq AY * E AY + qq AZ * E AZ) - E c * (qq AX * pp AX + qq AY * pp AY + qq AZ * pp AZ))%C).
  { destruct c; unfold cross; ring. }
  rewrite G, T. ring.
Qed.
Variable ee : R.
Hypothesis Hee : 0 < ee.
Hypothesis Heps : forall i j k, g_eps g i j k = ee.
Lemma eps_uniform : forall c i j k, eps_t g jax c i j k = ee.
Proof.
  intros. assert (E : eps_t g false c i j k = ee). { unfold eps_t, yee_avg, avg_axis, ralong. destruct c; rewrite !Heps; lra. }
  destruct jax; [rewrite eps_jax |]; exact E.
Qed.
Variable om : R.
Hypothesis Hom : (2 * sin (om * dt_of g / 2)) ^ 2 = dt_of g ^ 2 * lattice_k2 g m / ee.
Hypothesis Hnz : lattice_k2 g m <> 0.
Let z := cis (- (om * dt_of g)).
Lemma z_quad : ((z - C1) * (z - C1))%C = (- (RtoC (dt_of g ^ 2 * lattice_k2 g m / ee) * z))%C.
Proof.
  rewrite <- Hom. unfold z. set (t := om * dt_of g).
  assert (S : (2 * sin (t / 2)) ^ 2 = 2 - 2 * cos t).
  { replace (cos t) with (1 - 2 * sin (t / 2) * sin (t / 2)); [ring |]. rewrite <- cos_2a_sin. f_equal. lra. }
  fold t. rewrite S. pose proof (sin2_cos2 t) as Q. unfold Rsqr in Q. unfold cis. rewrite cos_neg, sin_neg.
  apply C_eq; cbn [re im RtoC Csub Cmul Cadd Copp C1]; [| ring].
  clear - Q. set (c := cos t) in *. set (v := sin t) in *. clearbody c v.
  match goal with |- ?L = ?R => replace L with ((c - 1) * (c - 1) - v * v) by ring end. replace (v * v) with (1 - c * c) by lra. ring.
Qed.
Lemma dt_nz : 0 < dt_of g. Proof. apply (dt_pos g Hw). Qed.
Lemma z_ne : (z - C1)%C <> C0.
Proof.
  intro E. pose proof z_quad as Q. rewrite E in Q. assert (Z1 : z = C1) by (replace z with ((z - C1) + C1)%C by ring; rewrite E; ring).
  rewrite Z1 in Q. apply (f_equal re) in Q. cbn [re im RtoC Csub Cmul Cadd Copp C1 C0] in Q.
  pose proof dt_nz as D. assert (N : dt_of g ^ 2 * lattice_k2 g m / ee <> 0).
  { unfold Rdiv. apply Rmult_integral_contrapositive_currified; [apply Rmult_integral_contrapositive_currified; [nra | auto] | apply Rinv_neq_0_compat; lra]. }
  apply N. lra.
Qed.
Definition H_amp (E : axis -> C) : axis -> C := fun c => (- (RtoC (dt_of g) * z * Cinv (z - C1) * cross pp E c))%C.
Lemma Cinv_l' : forall x, x <> C0 -> (Cinv x * x)%C = C1.
Proof. intros x H. field. exact H. Qed.
Lemma plane_step : forall E a, transverse g m E ->
  step g jax (mkState (times (fun c => a * E c)%C w) (times (fun c => a * H_amp E c)%C w)) [] =
  mkState (times (fun c => z * a * E c)%C w) (times (fun c => z * a * H_amp E c)%C w).
Proof.
  intros E a HE. pose proof z_ne as Z0. pose proof (Cinv_l' _ Z0) as Z1. pose proof z_quad as ZQ. pose proof dt_nz as D.
  assert (Ee : step_e g jax (mkState (times (fun c => a * E c)%C w) (times (fun c => a * H_amp E c)%C w)) [] = times (fun c => z * a * E c)%C w).
  { apply same_eq. intros c i j k. unfold step_e. cbn [fold_left f_e f_h]. rewrite curl_h_w, eps_uniform.
    assert (X : cross qq (fun c => a * H_amp E c)%C c = (- (a * RtoC (dt_of g) * z * Cinv (z - C1) * (RtoC (lattice_k2 g m) * E c)))%C).
    { rewrite <- double_cross by auto. unfold H_amp. destruct c; unfold cross; ring. }
    rewrite X. unfold times.
    assert (R1 : (RtoC (dt_of g ^ 2 * lattice_k2 g m / ee) = RtoC (dt_of g) * RtoC (dt_of g) * RtoC (lattice_k2 g m) / RtoC ee)%C).
    { unfold Rdiv. rewrite !RtoC_mul. rewrite RtoC_inv by lra. unfold Cdiv. replace (dt_of g ^ 2) with (dt_of g * dt_of g) by ring. rewrite RtoC_mul. ring. }
    rewrite R1 in ZQ.
    replace (- (a * RtoC (dt_of g) * z * Cinv (z - C1) * (RtoC (lattice_k2 g m) * E c)) * w i j k / RtoC ee * RtoC (dt_of g))%C with
      ((- (RtoC (dt_of g) * RtoC (dt_of g) * RtoC (lattice_k2 g m) / RtoC ee * z)) * Cinv (z - C1) * a * E c * w i j k)%C by (unfold Cdiv; ring).
    rewrite <- ZQ. replace ((z - C1) * (z - C1) * Cinv (z - C1))%C with ((Cinv (z - C1) * (z - C1)) * (z - C1))%C by ring. rewrite Z1. ring. }
  unfold step. cbv zeta. rewrite Ee. f_equal. apply same_eq. intros c i j k. unfold step_h. cbn [fold_left f_h]. rewrite curl_e_w.
  assert (X : cross pp (fun c => z * a * E c)%C c = (z * a * cross pp E c)%C) by (destruct c; unfold cross; ring).
  rewrite X. unfold times, H_amp. set (P := cross pp E c).
  assert (Y : (z * Cinv (z - C1) = Cinv (z - C1) + C1)%C) by (transitivity (Cinv (z - C1) + Cinv (z - C1) * (z - C1))%C; [ring | rewrite Z1; reflexivity]).
  replace (z * a * - (RtoC (dt_of g) * z * Cinv (z - C1) * P) * w i j k)%C with (- (a * RtoC (dt_of g) * z * (z * Cinv (z - C1)) * P * w i j k))%C by ring.
  rewrite Y. ring.
Qed.
Lemma plane_run : forall E n, transverse g m E ->
  free_run g jax (mkState (times E w) (times (H_amp E) w)) n =
  mkState (times (fun c => cis (- (om * (INR n * dt_of g))) * E c)%C w) (times (fun c => cis (- (om * (INR n * dt_of g))) * H_amp E c)%C w).
Proof.
  intros E n HE. induction n as [| n IH].
  - unfold free_run. cbn [repeat run]. simpl (INR 0). replace (- (om * (0 * dt_of g))) with 0 by ring. rewrite cis_0.
    f_equal; apply same_eq; intros c i j k; unfold times; ring.
  - rewrite free_run_S, IH, plane_step by auto.
    assert (Q : (z * cis (- (om * (INR n * dt_of g))))%C = cis (- (om * (INR (S n) * dt_of g)))).
    { unfold z. rewrite <- cis_add. f_equal. rewrite S_INR. ring. }
    f_equal; apply same_eq; intros c i j k; unfold times; rewrite <- Q; ring.
Qed.
End Plane.
Lemma dispersion : forall g m jax ee om E, wf_grid g -> 0 < ee -> (forall i j k, g_eps g i j k = ee) -> transverse g m E ->
  (2 * sin (om * dt_of g / 2)) ^ 2 = dt_of g ^ 2 * lattice_k2 g m / ee -> lattice_k2 g m <> 0 ->
  exists H, forall n, free_run g jax (mkState (times E (plane (g_shape g) m)) (times H (plane (g_shape g) m))) n =
    mkState (times (fun c => cis (- (om * (INR n * dt_of g))) * E c)%C (plane (g_shape g) m))
            (times (fun c => cis (- (om * (INR n * dt_of g))) * H c)%C (plane (g_shape g) m)).
Proof.
  intros g m jax ee om E Hw Hee Heps HE Hom Hnz. exists (H_amp g m om E). intro n. apply (plane_run g m jax Hw ee Hee Heps om Hom Hnz E n HE).
Qed.
Lemma k2_bound : forall g m, wf_grid g -> 0 <= dt_of g ^ 2 * lattice_k2 g m <= 4.
Proof.
  intros g m Hw. pose proof (dt_sq g Hw) as D. pose proof (dt_pos g Hw) as P.
  assert (B : forall a, 0 <= (2 * sin (per_cell (g_shape g) m a / 2) / g_spacing g a) ^ 2 <= 4 * inv_sq g a).
  { intro a. split; [apply pow2_ge_0 |]. unfold inv_sq. destruct (is_active g a) eqn:E.
    - assert (0 < g_spacing g a) by (apply Hw; auto). pose proof (SIN_bound (per_cell (g_shape g) m a / 2)) as S.
      set (x := sin (per_cell (g_shape g) m a / 2)) in *. replace ((2 * x / g_spacing g a) ^ 2) with (4 * (x * x) * / (g_spacing g a * g_spacing g a)) by (field; lra).
      assert (0 < / (g_spacing g a * g_spacing g a)) by (apply Rinv_0_lt_compat; nra). assert (x * x <= 1) by nra. set (y := x * x) in *. nra.
    - destruct (inactive_th g m Hw a E) as (_ & ->). unfold Rdiv. right. ring. }
  unfold lattice_k2, sum3. pose proof (B AX); pose proof (B AY); pose proof (B AZ).
  assert (Q : 0 < dt_of g ^ 2) by (apply pow_lt; auto).
  replace (dt_of g * dt_of g) with (dt_of g ^ 2) in D by ring. nra.
Qed.
Lemma dispersion_exists : forall g m ee, wf_grid g -> 1 <= ee -> 
  exists om, 0 <= om /\ (2 * sin (om * dt_of g / 2)) ^ 2 = dt_of g ^ 2 * lattice_k2 g m / ee.
Proof.
  intros g m ee Hw He. pose proof (dt_pos g Hw) as P. destruct (k2_bound g m Hw) as (B0 & B1). set (q := dt_of g ^ 2 * lattice_k2 g m) in *.
  assert (Q : 0 <= q / ee <= 4).
  { assert (0 < / ee) by (apply Rinv_0_lt_compat; lra). assert (/ ee <= 1) by (rewrite <- Rinv_1; apply Rinv_le_contravar; lra). unfold Rdiv. split; nra. }
  set (x := sqrt (q / ee) / 2). assert (X : 0 <= x <= 1).
  { unfold x. pose proof (sqrt_pos (q / ee)). assert (sqrt (q / ee) <= 2) by (replace 2 with (sqrt (2 * 2)) by (apply sqrt_square; lra); apply sqrt_le_1_alt; lra). lra. }
  exists (2 * asin x / dt_of g). split.
  - assert (0 <= asin x). { pose proof (asin_bound x) as Ab. destruct (Rle_or_lt 0 (asin x)) as [| L]; [auto |]. exfalso. pose proof PI_RGT_0 as Pi. pose proof (sin_lt_0_var (asin x) ltac:(lra) L) as S. rewrite sin_asin in S by lra. lra. }
    unfold Rdiv. assert (0 < / dt_of g) by (apply Rinv_0_lt_compat; lra). nra.
  - replace (2 * asin x / dt_of g * dt_of g / 2) with (asin x) by (field; lra). rewrite sin_asin by lra. unfold x.
    replace ((2 * (sqrt (q / ee) / 2)) ^ 2) with (sqrt (q / ee) * sqrt (q / ee)) by field. apply sqrt_sqrt. lra.
Qed.
