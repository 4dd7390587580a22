(** C184: what each step's sources add to a lossless run. *)
From Coq Require Import Reals Lra Lia Psatz List Arith Bool FunctionalExtensionality.
From Verif Require Import Cx Arr Model_yee Spec_yee Proof_yee Proof_yee2 Model_fdtd Spec_fdtd Proof_fdtd Proof_energy Proof_energy2 Proof_fdtd3 Proof_sym Proof_harm2.
From Verif Require Import Spec_sym Proof_adj Proof_fdfd Proof_fdfd2 Model_fdfd Spec_fdfd Spec_harm Spec_conv Proof_duhamel Spec_drive Proof_drive Spec_fdfdc Spec_fdfdst Proof_fdfdst.
Import ListNotations.
Local Open Scope R_scope.

Lemma gap_zero : forall a, gap a zero_state = a.
Proof. intro a. apply state_eq; intros c i j k; unfold gap, zero_state, Model_fdtd.zero_vfld; cbn [f_e f_h]; ring. Qed.
Lemma sadd_gap : forall a b, sadd (gap a b) b = a.
Proof. intros. apply state_eq; intros c i j k; unfold gap, sadd, vadd; cbn [f_e f_h]; ring. Qed.
Lemma step_split : forall g st l, step g false st l = sadd (step g false st []) (step g false zero_state l).
Proof. intros. pose proof (step_gap g st zero_state l) as H. rewrite gap_zero in H. rewrite <- H. symmetry. apply sadd_gap. Qed.
Lemma gap_sadd : forall a b c d, gap (sadd a b) (sadd c d) = sadd (gap a c) (gap b d).
Proof. intros. apply state_eq; intros x i j k; unfold gap, sadd, vadd; cbn [f_e f_h]; ring. Qed.
Lemma run_seq_S : forall g st (sch : nat -> list source) n, run g false st (map sch (seq 0 (S n))) = step g false (run g false st (map sch (seq 0 n))) (sch n).
Proof.
  intros. rewrite seq_S, map_app. cbn [map Nat.add]. generalize (map sch (seq 0 n)) as l. intro l. revert st. induction l; intro st; [reflexivity |]. cbn [app run]. apply IHl.
Qed.
Lemma gap_S : forall g a b s1 s2 n,
  gap (run g false a (map s1 (seq 0 (S n)))) (run g false b (map s2 (seq 0 (S n)))) =
  sadd (step g false (gap (run g false a (map s1 (seq 0 n))) (run g false b (map s2 (seq 0 n)))) []) (gap (step g false zero_state (s1 n)) (step g false zero_state (s2 n))).
Proof. intros. rewrite !run_seq_S, (step_split g _ (s1 n)), (step_split g _ (s2 n)), gap_sadd, step_gap. reflexivity. Qed.

Section B.
Variable g : fgrid.
Hypothesis W : wf_grid g.
Hypothesis He : forall i j k, in_grid (g_shape g) i j k -> 1 <= g_eps g i j k.
Lemma posi : forall c i j k, in_grid (g_shape g) i j k -> 0 <= eps_t g false c i j k.
Proof. intros. pose proof (eps_t_lower g false 1 He c i j k H). lra. Qed.
Lemma two_runs : forall (Bd : nat -> R), (forall st n, nst g (free_run g false st n) <= Bd n * nst g st) -> forall a b s1 s2 n,
  nst g (gap (run g false a (map s1 (seq 0 n))) (run g false b (map s2 (seq 0 n)))) <=
  Bd n * nst g (gap a b) + Rsum n (fun k => Bd (n - 1 - k)%nat * nst g (gap (step g false zero_state (s1 k)) (step g false zero_state (s2 k)))).
Proof.
  intros Bd HB a b s1 s2 n.
  exact (duhamel g posi Bd HB (fun n => gap (run g false a (map s1 (seq 0 n))) (run g false b (map s2 (seq 0 n)))) _ (gap_S g a b s1 s2) n 0%nat).
Qed.
End B.
Lemma Rsum_c : forall n c f, Rsum n (fun k => c * f k) = c * Rsum n f.
Proof. induction n; intros; cbn [Rsum]; [ring | rewrite IHn; ring]. Qed.
Lemma Rsum_mono : forall n f h, (forall k, (k < n)%nat -> f k <= h k) -> Rsum n f <= Rsum n h.
Proof. induction n; intros; cbn [Rsum]; [lra | apply Rplus_le_compat; auto]. Qed.

Lemma two_uniform : forall g kap, wf_grid g -> 1 < kap -> (forall i j k, in_grid (g_shape g) i j k -> kap <= g_eps g i j k) -> forall a b s1 s2 n,
  sqrt (field_energy g false (gap (run g false a (map s1 (seq 0 n))) (run g false b (map s2 (seq 0 n))))) <=
  sqrt (2 / (1 - / sqrt kap)) * (sqrt (field_energy g false (gap a b)) +
    Rsum n (fun k => sqrt (field_energy g false (gap (step g false zero_state (s1 k)) (step g false zero_state (s2 k)))))).
Proof.
  intros g kap W Hk He a b s1 s2 n. rewrite Rmult_plus_distr_l, <- Rsum_c.
  refine (two_runs g (fun i j k H => Rle_trans _ _ _ (Rlt_le _ _ Hk) (He i j k H)) (fun _ => sqrt (2 / (1 - / sqrt kap))) _ a b s1 s2 n).
  intros st m. pose proof (uniform_bound g false kap st m W Hk He) as G. unfold nst. rewrite <- sqrt_mult_alt; [apply sqrt_le_1_alt; exact G |].
  assert (1 < sqrt kap) by (rewrite <- sqrt_1; apply sqrt_lt_1_alt; lra). assert (/ sqrt kap < 1) by (rewrite <- Rinv_1; apply Rinv_lt_contravar; lra).
  apply Rlt_le, Rdiv_lt_0_compat; lra.
Qed.
Lemma two_linear : forall g, wf_grid g -> (forall i j k, in_grid (g_shape g) i j k -> 1 <= g_eps g i j k) -> forall a b s1 s2 n,
  sqrt (field_energy g false (gap (run g false a (map s1 (seq 0 n))) (run g false b (map s2 (seq 0 n))))) <=
  4 * (INR n + 1) * (sqrt (field_energy g false (gap a b)) +
    Rsum n (fun k => sqrt (field_energy g false (gap (step g false zero_state (s1 k)) (step g false zero_state (s2 k)))))).
Proof.
  intros g W He a b s1 s2 n.
  assert (HB : forall st m, nst g (free_run g false st m) <= 4 * (INR m + 1) * nst g st).
  { intros st m. pose proof (growth_bound g false st m W He) as G. pose proof (posi g He) as P.
    apply sq_le_le; [apply Rmult_le_pos; [pose proof (pos_INR m); lra | apply nst_pos] |]. rewrite nst_sq by exact P.
    replace (4 * (INR m + 1) * nst g st * (4 * (INR m + 1) * nst g st)) with (16 * ((INR m + 1) * (INR m + 1)) * (nst g st * nst g st)) by ring.
    rewrite nst_sq by exact P. exact G. }
  pose proof (two_runs g He _ HB a b s1 s2 n) as T. fold (nst g (gap (run g false a (map s1 (seq 0 n))) (run g false b (map s2 (seq 0 n))))). eapply Rle_trans; [exact T |].
  rewrite Rmult_plus_distr_l, <- Rsum_c. apply Rplus_le_compat; [apply Rle_refl |]. apply Rsum_mono. intros k Hk. apply Rmult_le_compat_r; [apply sqrt_pos |].
  pose proof (le_INR (n - 1 - k) n ltac:(lia)). lra.
Qed.

(** ** One run. *)
Lemma gap_self : forall a, gap a a = zero_state.
Proof. intro a. apply state_eq; intros c i j k; unfold gap, zero_state, Model_fdtd.zero_vfld; cbn [f_e f_h]; ring. Qed.
Lemma step_zero : forall g, step g false zero_state [] = zero_state.
Proof. intro g. pose proof (step_gap g zero_state zero_state []) as H. rewrite !gap_self in H. symmetry. exact H. Qed.
Lemma run_zero : forall g n, run g false zero_state (map (fun _ => []) (seq 0 n)) = zero_state.
Proof. intros g n. induction n; [reflexivity |]. rewrite run_seq_S, IHn. apply step_zero. Qed.
Lemma Rsum_same : forall n f h, (forall k, (k < n)%nat -> f k = h k) -> Rsum n f = Rsum n h.
Proof. induction n; intros; cbn [Rsum]; [reflexivity | f_equal; auto]. Qed.
Lemma one_uniform : forall g kap, wf_grid g -> 1 < kap -> (forall i j k, in_grid (g_shape g) i j k -> kap <= g_eps g i j k) -> forall st0 sch n,
  sqrt (field_energy g false (run g false st0 (map sch (seq 0 n)))) <=
  sqrt (2 / (1 - / sqrt kap)) * (sqrt (field_energy g false st0) + Rsum n (fun k => sqrt (field_energy g false (step g false zero_state (sch k))))).
Proof.
  intros g kap W Hk He st0 sch n. pose proof (two_uniform g kap W Hk He st0 zero_state sch (fun _ => []) n) as T. rewrite run_zero, !gap_zero in T.
  rewrite (Rsum_same n _ (fun k => sqrt (field_energy g false (step g false zero_state (sch k))))) in T; [exact T |]. intros. rewrite step_zero, gap_zero. reflexivity.
Qed.

(** ** A CW source adds the same amount at every step. *)
Lemma cw_push : forall g om src sch, (forall n, electric (sch n)) ->
  (forall n c i j k, in_grid (g_shape g) i j k -> current src_e (sch n) c i j k = (- (Ci * at_time om ((INR n + 1 / 2) * dt_of g) src c i j k))%C) ->
  forall n, field_energy g false (step g false zero_state (sch n)) = field_energy g false (step g false zero_state (sch 0%nat)).
Proof.
  intros g om src sch Hel Hc n. set (ph := cis (- (om * (INR n * dt_of g)))).
  assert (E : forall c i j k, in_grid (g_shape g) i j k -> f_e (step g false zero_state (sch n)) c i j k = (ph * f_e (step g false zero_state (sch 0%nat)) c i j k)%C).
  { intros c i j k Hin. rewrite !step_e_val, !Hc by auto. unfold at_time.
    replace (cis (- (om * ((INR n + 1 / 2) * dt_of g)))) with (ph * cis (- (om * ((INR 0 + 1 / 2) * dt_of g))))%C by (unfold ph; rewrite <- cis_add; f_equal; cbn [INR]; ring).
    assert (Z : (curl_h g (f_h zero_state) c i j k = C0)%C).
    { unfold curl_h, zero_state, Model_fdtd.zero_vfld. cbn [f_h]. 
      transitivity (curl_fn (diff_fn (g_shape g) (g_dx g) true) (fun (_ : axis) (_ _ _ : nat) => (C0 * C0)%C) c i j k).
      - apply Proof_fdfd.curl_ext; [intros; ring | exact Hin].
      - transitivity (C0 * curl_fn (diff_fn (g_shape g) (g_dx g) true) (fun _ _ _ _ => C0) c i j k)%C; [exact (curl_scal (g_shape g) (g_dx g) true C0 (fun _ _ _ _ => C0) c i j k) | ring]. }
    rewrite Z. unfold zero_state, Model_fdtd.zero_vfld, Cdiv. cbn [f_e]. ring. }
  assert (H : forall c i j k, in_grid (g_shape g) i j k -> f_h (step g false zero_state (sch n)) c i j k = (ph * f_h (step g false zero_state (sch 0%nat)) c i j k)%C).
  { intros c i j k Hin. rewrite !step_h_val by auto. unfold curl_e.
    rewrite (Proof_fdfd.curl_ext (g_shape g) (g_dx g) false _ (fun c i j k => ph * f_e (step g false zero_state (sch 0%nat)) c i j k)%C) by auto. rewrite curl_scal.
    unfold zero_state, Model_fdtd.zero_vfld. cbn [f_h]. ring. }
  unfold field_energy, sum3. assert (Q : forall z, Cn2 (ph * z)%C = Cn2 z). { intro z. unfold ph. rewrite Cn2_mul, <- (Cabs_sq (cis _)), Cabs_cis. ring. }
  f_equal; [f_equal |]; apply rgrid_sum_ext; intros; rewrite E, H, !Q by auto; reflexivity.
Qed.
Lemma Rsum_k : forall n c, Rsum n (fun _ => c) = INR n * c.
Proof. induction n; intros; [cbn [Rsum INR]; ring |]. cbn [Rsum]. rewrite IHn, S_INR. ring. Qed.
Lemma cw_rate : forall g kap, wf_grid g -> 1 < kap -> (forall i j k, in_grid (g_shape g) i j k -> kap <= g_eps g i j k) ->
  forall om src sch, (forall n, electric (sch n)) ->
  (forall n c i j k, in_grid (g_shape g) i j k -> current src_e (sch n) c i j k = (- (Ci * at_time om ((INR n + 1 / 2) * dt_of g) src c i j k))%C) ->
  forall st0 n, sqrt (field_energy g false (run g false st0 (map sch (seq 0 n)))) <=
  sqrt (2 / (1 - / sqrt kap)) * (sqrt (field_energy g false st0) + INR n * sqrt (field_energy g false (step g false zero_state (sch 0%nat)))).
Proof.
  intros g kap W Hk He om src sch Hel Hc st0 n. rewrite <- Rsum_k.
  rewrite (Rsum_same n _ (fun k => sqrt (field_energy g false (step g false zero_state (sch k))))) by (intros; rewrite (cw_push g om src sch Hel Hc k); reflexivity).
  apply one_uniform; auto.
Qed.
Lemma two_rate : let F n := sqrt (field_energy two_grid false (run two_grid false zero_state (map (cw_schedule two_grid (PI / 3) alternating) (seq 0 n)))) in
  let S := sqrt (field_energy two_grid false (step two_grid false zero_state (cw_schedule two_grid (PI / 3) alternating 0%nat))) in
  0 < S /\ (forall n, F n <= 2 * (INR n * S)) /\ exists c a, 0 < c /\ forall n, c * INR n - a <= F n.
Proof.
  destruct two_driven as (W & E & Hel & N & G). intros F S.
  assert (He : forall i j k, in_grid (g_shape two_grid) i j k -> 4 <= g_eps two_grid i j k) by (intros; cbn; lra).
  assert (Z : field_energy two_grid false zero_state = 0).
  { unfold field_energy, sum3, zero_state, Model_fdtd.zero_vfld. cbn [f_e f_h].
    assert (Q : rgrid_sum (g_shape two_grid) (fun _ _ _ => 0) = 0).
    { transitivity (rgrid_sum (g_shape two_grid) (fun _ _ _ => 0 * 0)); [apply rgrid_sum_ext; intros; ring |].
      transitivity (0 * rgrid_sum (g_shape two_grid) (fun _ _ _ => 0)); [exact (rgrid_sum_scal (g_shape two_grid) 0 (fun _ _ _ => 0)) | ring]. }
    transitivity (rgrid_sum (g_shape two_grid) (fun _ _ _ => 0) + rgrid_sum (g_shape two_grid) (fun _ _ _ => 0) + rgrid_sum (g_shape two_grid) (fun _ _ _ => 0)); [| rewrite Q; ring].
    f_equal; [f_equal |]; apply rgrid_sum_ext; intros; unfold Cn2; cbn [re im C0]; ring. }
  assert (U : forall n, F n <= 2 * (INR n * S)).
  { intro n. pose proof (cw_rate two_grid 4 W ltac:(lra) He (PI / 3) alternating _ Hel (fun n c i j k _ => cw_current _ _ _ n c i j k) zero_state n) as R.
    assert (S4 : sqrt 4 = 2) by (replace 4 with (2 * 2) by ring; apply sqrt_square; lra).
    rewrite Z, sqrt_0, Rplus_0_l, S4 in R. replace (2 / (1 - / 2)) with 4 in R by field. rewrite S4 in R. exact R. }
  split; [| split; [exact U |]].
  - destruct (sqrt_pos (field_energy two_grid false (step two_grid false zero_state (cw_schedule two_grid (PI / 3) alternating 0%nat)))) as [P | P]; [exact P | exfalso].
    destruct (G 0) as [n Hn]. pose proof (sqrt_lt_R0 _ Hn) as Q. specialize (U n). unfold F, S in U. rewrite <- P in U. lra.
  - exact (driven_growth two_grid W (fun i j k H => Rle_trans 1 4 _ ltac:(lra) (He i j k H)) (PI / 3) alternating _ ltac:(rewrite E; lra) Hel (fun n c i j k _ => cw_current _ _ _ n c i j k) N zero_state).
Qed.

(** ** In terms of the currents. *)
Lemma curl_h_rest : forall g c i j k, in_grid (g_shape g) i j k -> curl_h g (f_h zero_state) c i j k = C0.
Proof.
  intros g c i j k Hin. unfold curl_h, zero_state, Model_fdtd.zero_vfld. cbn [f_h].
  transitivity (curl_fn (diff_fn (g_shape g) (g_dx g) true) (fun (_ : axis) (_ _ _ : nat) => (C0 * C0)%C) c i j k).
  - apply Proof_fdfd.curl_ext; [intros; ring | exact Hin].
  - transitivity (C0 * curl_fn (diff_fn (g_shape g) (g_dx g) true) (fun _ _ _ _ => C0) c i j k)%C; [exact (curl_scal (g_shape g) (g_dx g) true C0 (fun _ _ _ _ => C0) c i j k) | ring].
Qed.
Lemma rest_push : forall g, wf_grid g -> (forall i j k, in_grid (g_shape g) i j k -> 1 <= g_eps g i j k) -> forall l,
  sqrt (field_energy g false (step g false zero_state l)) <= dt_of g * (3 * vnorm2 (g_shape g) (current src_e l) + vnorm2 (g_shape g) (current src_h l)).
Proof.
  intros g W He l. pose proof (eps_t_lower g false 1 He) as L. pose proof (dt_pos g W) as D.
  set (e := f_e (step g false zero_state l)). set (J := current src_e l). set (M := current src_h l). rewrite !vnorm2_nrm.
  assert (E : forall c i j k, in_grid (g_shape g) i j k -> e c i j k = (- (J c i j k / RtoC (eps_t g false c i j k) * RtoC (dt_of g)))%C).
  { intros c i j k Hin. unfold e. rewrite step_e_val, curl_h_rest by auto. unfold zero_state, Model_fdtd.zero_vfld, Cdiv. cbn [f_e]. fold J. ring. }
  assert (N : forall c i j k, in_grid (g_shape g) i j k -> Cn2 (e c i j k) = dt_of g * dt_of g * Cn2 (J c i j k) * (/ eps_t g false c i j k * / eps_t g false c i j k)).
  { intros c i j k Hin. rewrite E by auto. pose proof (L c i j k Hin). replace (J c i j k / RtoC (eps_t g false c i j k))%C with (J c i j k * RtoC (/ eps_t g false c i j k))%C.
    - unfold Cn2. cbn [re im Cmul Copp RtoC]. ring.
    - apply C_eq; unfold Cdiv, Cinv, Cn2; cbn [re im Cmul RtoC]; field; lra. }
  assert (Q1 : Qe g false e <= dt_of g * nrm (g_shape g) J * (dt_of g * nrm (g_shape g) J)).
  { replace (dt_of g * nrm (g_shape g) J * (dt_of g * nrm (g_shape g) J)) with (dt_of g * dt_of g * (nrm (g_shape g) J * nrm (g_shape g) J)) by ring. rewrite nrm_sq, <- vpower2_rin, Qe_value.
    unfold vpower2, sum3, power2. rewrite !Rmult_plus_distr_l, <- !rgrid_sum_scal.
    apply Rplus_le_compat; [apply Rplus_le_compat |]; apply rgrid_sum_le; intros i j k Hin; rewrite N by auto;
      match goal with |- context [Cn2 (J ?c i j k)] => pose proof (L c i j k Hin) as P; pose proof (Cn2_nonneg (J c i j k)) as Q end;
      (match goal with |- ?x * (?p * (/ ?x * / ?x)) <= _ => replace (x * (p * (/ x * / x))) with (p * / x) by (field; lra); assert (I : / x <= 1) by (rewrite <- Rinv_1; apply Rinv_le_contravar; lra); assert (0 <= p) by (apply Rmult_le_pos; [apply Rmult_le_pos; lra | exact Q]); nra end). }
  assert (Q2 : nrm (g_shape g) e <= dt_of g * nrm (g_shape g) J).
  { apply sq_le_le; [apply Rmult_le_pos; [lra | apply nrm_pos] |]. eapply Rle_trans; [| exact Q1]. rewrite nrm_sq, <- vpower2_rin, Qe_value.
    unfold vpower2, sum3, power2. apply Rplus_le_compat; [apply Rplus_le_compat |]; apply rgrid_sum_le; intros i j k Hin;
      match goal with |- Cn2 ?z <= _ * Cn2 ?z => pose proof (Cn2_nonneg z) end; match goal with |- _ <= eps_t g false ?c i j k * _ => pose proof (L c i j k Hin) end; nra. }
  assert (Hh : f_h (step g false zero_state l) = vscal (- dt_of g) (vadd (curl_e g e) M)).
  { rewrite h_step. fold e M. apply same_eq. intros c i j k. unfold vadd, vscal, zero_state, Model_fdtd.zero_vfld. cbn [f_h]. ring. }
  assert (Q3 : nrm (g_shape g) (f_h (step g false zero_state l)) <= 2 * (dt_of g * nrm (g_shape g) J) + dt_of g * nrm (g_shape g) M).
  { rewrite Hh, nrm_scal, Rabs_Ropp, Rabs_right by lra. pose proof (nrm_triangle (g_shape g) (curl_e g e) M) as T. pose proof (dt_curl_norm g W e) as C.
    apply Rle_trans with (dt_of g * (nrm (g_shape g) (curl_e g e) + nrm (g_shape g) M)); [apply Rmult_le_compat_l; lra |]. lra. }
  pose proof (nrm_pos (g_shape g) J). pose proof (nrm_pos (g_shape g) M). pose proof (nrm_pos (g_shape g) (f_h (step g false zero_state l))) as P3.
  assert (P1 : 0 <= dt_of g * nrm (g_shape g) J) by (apply Rmult_le_pos; lra). assert (P2 : 0 <= dt_of g * nrm (g_shape g) M) by (apply Rmult_le_pos; lra).
  apply Rle_trans with (dt_of g * nrm (g_shape g) J + nrm (g_shape g) (f_h (step g false zero_state l))); [| lra].
  rewrite energy_value. fold e. rewrite <- nrm_sq. set (a := dt_of g * nrm (g_shape g) J) in *. set (b := nrm (g_shape g) (f_h (step g false zero_state l))) in *.
  rewrite <- (sqrt_square (a + b)) by lra. apply sqrt_le_1_alt. nra.
Qed.
Lemma currents_bound : forall g kap, wf_grid g -> 1 < kap -> (forall i j k, in_grid (g_shape g) i j k -> kap <= g_eps g i j k) -> forall st0 sch n,
  sqrt (field_energy g false (run g false st0 (map sch (seq 0 n)))) <=
  sqrt (2 / (1 - / sqrt kap)) * (sqrt (field_energy g false st0) +
    dt_of g * Rsum n (fun k => 3 * vnorm2 (g_shape g) (current src_e (sch k)) + vnorm2 (g_shape g) (current src_h (sch k)))).
Proof.
  intros g kap W Hk He st0 sch n. eapply Rle_trans; [apply one_uniform; eauto |]. apply Rmult_le_compat_l; [apply sqrt_pos |]. apply Rplus_le_compat_l.
  rewrite <- Rsum_c. apply Rsum_mono. intros k _. apply rest_push; [exact W |]. intros i j k0 H. pose proof (He i j k0 H). lra.
Qed.
