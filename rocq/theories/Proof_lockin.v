(** C181, C182: lossless runs keep the difference of two states, and lock-in averages of a CW run give the FDFD fields. *)
From Coq Require Import Reals Lra Lia Psatz List Arith Bool FunctionalExtensionality.
From Verif Require Import Cx Arr Model_yee Spec_yee Proof_yee Proof_yee2 Model_fdtd Spec_fdtd Proof_fdtd Proof_energy Proof_energy2 Proof_fdtd3 Proof_sym.
From Verif Require Import Model_fdfdc Proof_fdfdc3 Model_fdfd Spec_fdfd Proof_fdfd Proof_fdfd2 Proof_fdfd3 Spec_harm Proof_harm Spec_conv Proof_duhamel Proof_adj Spec_sym Spec_lockin.
Import ListNotations.
Local Open Scope R_scope.

Lemma run_gap : forall g sch a b, gap (run g false a sch) (run g false b sch) = free_run g false (gap a b) (length sch).
Proof.
  intros g sch. induction sch as [| l sch IH]; intros a b; [reflexivity |]. cbn [run length]. rewrite IH, step_gap. reflexivity.
Qed.
Lemma run_gap_map : forall g (sch : nat -> list source) n a b,
  gap (run g false a (map sch (seq 0 n))) (run g false b (map sch (seq 0 n))) = free_run g false (gap a b) n.
Proof. intros. rewrite run_gap, map_length, seq_length. reflexivity. Qed.

Definition same_in (s : shape3) (a b : fstate) : Prop :=
  (forall c i j k, in_grid s i j k -> f_e a c i j k = f_e b c i j k) /\ (forall c i j k, in_grid s i j k -> f_h a c i j k = f_h b c i j k).
Lemma energy_same : forall g jax a b, same_in (g_shape g) a b -> field_energy g jax a = field_energy g jax b.
Proof. intros g jax a b [He Hh]. unfold field_energy, sum3. f_equal; [f_equal |]; apply rgrid_sum_ext; intros; rewrite He, Hh by auto; reflexivity. Qed.
Lemma el_nil : electric []. Proof. constructor. Qed.
Lemma step_same : forall g a b, same_in (g_shape g) a b -> same_in (g_shape g) (step g false a []) (step g false b []).
Proof.
  intros g a b [He Hh].
  assert (E : forall c i j k, in_grid (g_shape g) i j k -> f_e (step g false a []) c i j k = f_e (step g false b []) c i j k).
  { intros. rewrite !step_e_val, He by auto. unfold curl_h. rewrite (curl_ext (g_shape g) (g_dx g) true (f_h a) (f_h b)) by auto. reflexivity. }
  split; [exact E |]. intros. rewrite !step_h_val by apply el_nil. rewrite Hh by auto. unfold curl_e.
  rewrite (curl_ext (g_shape g) (g_dx g) false (f_e (step g false a [])) (f_e (step g false b []))) by auto. reflexivity.
Qed.
Lemma free_same : forall g n a b, same_in (g_shape g) a b -> same_in (g_shape g) (free_run g false a n) (free_run g false b n).
Proof. intros g n a b H. induction n; [exact H |]. rewrite !free_run_S. apply step_same; auto. Qed.

Section Mem.
Variables (g : fgrid) (kap : R).
Hypothesis W : wf_grid g.
Hypothesis Hk : 1 < kap.
Hypothesis He : forall i j k, in_grid (g_shape g) i j k -> kap <= g_eps g i j k.
Notation s := (g_shape g).
Notation dt := (dt_of g).

Lemma kap_small : 0 < 1 - / sqrt kap.
Proof.
  assert (1 < sqrt kap) by (rewrite <- sqrt_1; apply sqrt_lt_1_alt; lra).
  assert (/ sqrt kap < 1) by (rewrite <- Rinv_1; apply Rinv_lt_contravar; lra). lra.
Qed.
Lemma nz : eps_nonzero g false. Proof. exact (eps_nz_of_lower g false kap ltac:(lra) He). Qed.
Lemma free_lower : forall st n, (1 - / sqrt kap) / 2 * field_energy g false st <= field_energy g false (free_run g false st n).
Proof.
  intros st n. pose proof (WW_run g false nz st n) as E. pose proof (eps_t_lower g false kap He) as L.
  pose proof (WW_upper g false W kap ltac:(lra) L (free_run g false st n)) as U.
  pose proof (WW_lower g false W kap ltac:(lra) L st). lra.
Qed.
Lemma memory : forall sch a b, let n := length sch in
  (1 - / sqrt kap) / 2 * field_energy g false (gap a b) <= field_energy g false (gap (run g false a sch) (run g false b sch)) /\
  field_energy g false (gap (run g false a sch) (run g false b sch)) <= 2 / (1 - / sqrt kap) * field_energy g false (gap a b).
Proof.
  intros sch a b n. rewrite run_gap. split; [apply free_lower |]. apply uniform_bound; auto.
Qed.

(** ** The averages. *)
Lemma cell_e : forall st c i j k, in_grid s i j k -> Cn2 (f_e st c i j k) <= field_energy g false st /\ Cn2 (f_h st c i j k) <= field_energy g false st.
Proof.
  intros st c i j k Hin. pose proof (eps_t_lower g false kap He) as L.
  assert (P : forall c i j k, in_grid s i j k -> 0 <= eps_t g false c i j k * Cn2 (f_e st c i j k) + Cn2 (f_h st c i j k)).
  { intros c' i' j' k' H. pose proof (L c' i' j' k' H). pose proof (Cn2_nonneg (f_e st c' i' j' k')). pose proof (Cn2_nonneg (f_h st c' i' j' k')). nra. }
  assert (Q : eps_t g false c i j k * Cn2 (f_e st c i j k) + Cn2 (f_h st c i j k) <= field_energy g false st).
  { assert (T : forall c, 0 <= rgrid_sum s (fun i j k => eps_t g false c i j k * Cn2 (f_e st c i j k) + Cn2 (f_h st c i j k))) by (intro; apply rgrid_sum_nonneg; auto).
    assert (U : eps_t g false c i j k * Cn2 (f_e st c i j k) + Cn2 (f_h st c i j k) <= rgrid_sum s (fun i j k => eps_t g false c i j k * Cn2 (f_e st c i j k) + Cn2 (f_h st c i j k))).
    { destruct Hin as (Hi & Hj & Hl). unfold rgrid_sum.
      eapply Rle_trans; [| apply (Rsum_term_le (s AX) _ i); [| exact Hi]].
      - cbv beta. eapply Rle_trans; [| apply (Rsum_term_le (s AY) _ j); [| exact Hj]].
        + cbv beta. apply (Rsum_term_le (s AZ) (fun k => eps_t g false c i j k * Cn2 (f_e st c i j k) + Cn2 (f_h st c i j k)) k); [| exact Hl].
          intros; apply P; repeat split; auto.
        + intros; apply Rsum_nonneg; intros; apply P; repeat split; auto.
      - intros; apply Rsum_nonneg; intros; apply Rsum_nonneg; intros; apply P; repeat split; auto. }
    pose proof (T AX); pose proof (T AY); pose proof (T AZ). unfold field_energy, sum3. destruct c; lra. }
  pose proof (L c i j k Hin). pose proof (Cn2_nonneg (f_e st c i j k)). pose proof (Cn2_nonneg (f_h st c i j k)). split; nra.
Qed.

Definition csc (c : C) (st : fstate) : fstate := mkState (fun a i j k => c * f_e st a i j k)%C (fun a i j k => c * f_h st a i j k)%C.
Lemma step_csc : forall c st, step g false (csc c st) [] = csc c (step g false st []).
Proof.
  intros. assert (E : forall st, csc c st = lin_state c C0 st st) by (intros; apply state_eq; intros a i j k; unfold csc, lin_state, lin; cbn [f_e f_h]; ring).
  rewrite !E. apply step_lin. constructor.
Qed.
Lemma free_csc : forall c n st, free_run g false (csc c st) n = csc c (free_run g false st n).
Proof. intros c n st. induction n; [reflexivity |]. rewrite !free_run_S, IHn. apply step_csc. Qed.

(** If e^{i om dt} times one step of z is z + x, the sums of the demodulated x telescope. *)
Section Tele.
Variable om : R.
Variables x z : fstate.
Hypothesis Hz : same_in s (csc (cis (om * dt)) (step g false z [])) (sadd z x).
Lemma tele1 : forall n, same_in s (csc (cis (om * dt)) (free_run g false z (S n))) (sadd (free_run g false z n) (free_run g false x n)).
Proof.
  intro n. rewrite <- free_sadd. pose proof (free_same g n _ _ Hz) as H. rewrite free_csc, free_step_shift in H. exact H.
Qed.
Definition de (y : fstate) c i j k (m : nat) : C := (cis (om * (INR m * dt)) * f_e (free_run g false y m) c i j k)%C.
Definition dh (y : fstate) c i j k (m : nat) : C := (cis (om * (INR m * dt)) * f_h (free_run g false y m) c i j k)%C.
Lemma tele_step : forall c i j k m, in_grid s i j k -> de x c i j k m = (de z c i j k (S m) - de z c i j k m)%C /\ dh x c i j k m = (dh z c i j k (S m) - dh z c i j k m)%C.
Proof.
  intros c i j k m Hin. destruct (tele1 m) as [A B]. specialize (A c i j k Hin). specialize (B c i j k Hin). unfold csc, sadd, vadd in A, B. cbn [f_e f_h] in A, B.
  unfold de, dh. assert (Q : om * (INR (S m) * dt) = om * (INR m * dt) + om * dt) by (rewrite S_INR; ring). rewrite Q, cis_add. split.
  - transitivity (cis (om * (INR m * dt)) * (cis (om * dt) * f_e (free_run g false z (S m)) c i j k) - cis (om * (INR m * dt)) * f_e (free_run g false z m) c i j k)%C; [rewrite A; ring | ring].
  - transitivity (cis (om * (INR m * dt)) * (cis (om * dt) * f_h (free_run g false z (S m)) c i j k) - cis (om * (INR m * dt)) * f_h (free_run g false z m) c i j k)%C; [rewrite B; ring | ring].
Qed.
Definition BZ : R := sqrt (2 / (1 - / sqrt kap) * field_energy g false z).
Lemma d_bound : forall c i j k m, in_grid s i j k -> Cabs (de z c i j k m) <= BZ /\ Cabs (dh z c i j k m) <= BZ.
Proof.
  intros c i j k m Hin. unfold de, dh. rewrite !Cabs_mul, !Cabs_cis, !Rmult_1_l. pose proof (uniform_bound g false kap z m W Hk He) as U.
  destruct (cell_e (free_run g false z m) c i j k Hin) as [A B]. unfold BZ, Cabs. split; apply sqrt_le_1_alt; lra.
Qed.
End Tele.
Lemma tele_sum : forall (f d : nat -> C) n0 n, (forall m, f m = (d (S m) - d m)%C) -> Csum n (fun m => f (n0 + m)%nat) = (d (n0 + n)%nat - d n0)%C.
Proof.
  intros f d n0 n H. induction n; cbn [Csum]; [rewrite Nat.add_0_r; ring |]. rewrite IHn, H. replace (n0 + S n)%nat with (S (n0 + n)) by lia. ring.
Qed.
Lemma average_close : forall (v d : nat -> C) (u q : C) B n0 n, (1 <= n)%nat -> Cabs q = 1 -> (forall m, v m = u + q * (d (S m) - d m))%C -> (forall m, Cabs (d m) <= B) ->
  Cabs (Csum n (fun m => v (n0 + m)%nat) / RtoC (INR n) - u)%C <= 2 * B / INR n.
Proof.
  intros v d u q B n0 n Hn Hq Hv Hd. assert (N : 0 < INR n) by (apply lt_0_INR; lia).
  assert (E : (Csum n (fun m => v (n0 + m)%nat) / RtoC (INR n) - u)%C = (q * (d (n0 + n)%nat - d n0) * RtoC (/ INR n))%C).
  { rewrite (Csum_ext n _ (fun m => u + q * (d (S (n0 + m)) - d (n0 + m)%nat))%C) by (intros; apply Hv). rewrite Csum_add, Csum_scal.
    rewrite (tele_sum (fun m => d (S m) - d m)%C d) by reflexivity.
    assert (K : forall n, Csum n (fun _ => u) = (RtoC (INR n) * u)%C).
    { intro p. induction p; cbn [Csum]; [cbn [INR]; apply C_eq; cbn [re im RtoC Cmul C0]; ring |]. rewrite IHp, S_INR, RtoC_add. replace (RtoC 1) with C1 by reflexivity. ring. }
    rewrite K. assert (Z : RtoC (INR n) <> C0) by (apply RtoC_neq0; lra). replace (RtoC (/ INR n)) with (C1 / RtoC (INR n))%C; [field; auto |].
    apply C_eq; unfold Cdiv, Cinv, Cn2; cbn [re im RtoC Cmul C1]; field; lra. }
  assert (NI : 0 < / INR n) by (apply Rinv_0_lt_compat; auto).
  rewrite E, !Cabs_mul, Hq, Cabs_RtoC by lra.
  unfold Rdiv. apply Rmult_le_compat_r; [lra |].
  assert (T : Cabs (d (n0 + n)%nat - d n0)%C <= Cabs (d (n0 + n)%nat) + Cabs (d n0)).
  { apply Cabs_sub. }
  pose proof (Hd (n0 + n)%nat). pose proof (Hd n0). lra.
Qed.

(** z exists when the FDFD system is solvable for every source. *)
Lemma solve_z : forall om x, lattice_wavenumber g om <> 0 ->
  (forall j, exists solver, exact3 (at_wavenumber g (lattice_wavenumber g om)) solver j) ->
  exists z, same_in s (csc (cis (om * dt)) (step g false z [])) (sadd z x).
Proof.
  intros om x HK HS. set (K := lattice_wavenumber g om) in *. set (d := at_wavenumber g K) in *. set (w := cis (om * dt)).
  assert (Dt : dt <> 0) by (pose proof (dt_pos g W); lra). assert (DC : RtoC dt <> C0) by (apply RtoC_neq0; auto).
  assert (KC : RtoC K <> C0) by (apply RtoC_neq0; auto). assert (Wn : w <> C0) by apply cis_neq_0.
  (* (w - 1)^2 = - (K dt)^2 w *)
  assert (Q : ((w - C1) * (w - C1) = - (RtoC (K * dt) * RtoC (K * dt) * w))%C).
  { pose proof (half_turn (- (om * dt))) as T. rewrite Ropp_involutive in T. fold w in T. rewrite T.
    assert (S1 : 2 * sin (- (om * dt) / 2) = - (K * dt)).
    { replace (- (om * dt) / 2) with (- (om * dt / 2)) by field. rewrite sin_neg. unfold K. rewrite (kap_dt g W). ring. }
    rewrite S1. replace (- (- (om * dt) / 2)) with (om * dt / 2) by field.
    assert (S2 : w = (cis (om * dt / 2) * cis (om * dt / 2))%C) by (unfold w; rewrite <- cis_add; f_equal; field). rewrite S2.
    rewrite RtoC_opp. assert (I2 : (Ci * Ci = - C1)%C) by (apply C_eq; cbn [re im Cmul Ci Copp C1]; ring).
    transitivity ((Ci * Ci) * (RtoC (K * dt) * RtoC (K * dt)) * (cis (om * dt / 2) * cis (om * dt / 2)))%C; [ring | rewrite I2; ring]. }
  assert (W1 : (w - C1)%C <> C0).
  { intro Z. rewrite Z in Q. assert (Y : (RtoC (K * dt) * RtoC (K * dt) * w)%C <> C0).
    { assert (KD : RtoC (K * dt) <> C0) by (rewrite RtoC_mul; apply Cmul_nz; auto). repeat apply Cmul_nz; auto. }
    apply Y. transitivity (- (C0 * C0))%C; [rewrite Q; ring | ring]. }
  pose (cc := curl_fn (diff_fn s (g_dx g) true)). pose (ce := curl_fn (diff_fn s (g_dx g) false)).
  pose (ep := fun c i j k => RtoC (eps_t g false c i j k)).
  pose (xe := f_e x). pose (xh := f_h x).
  pose (src := fun c i j k => (((ep c i j k * (w - C1) / w * xe c i j k - RtoC dt * cc xh c i j k) / (RtoC dt * RtoC dt) - cc (ce xe) c i j k) / RtoC K)%C).
  destruct (HS src) as [solver Hs]. pose proof (exact3_op3 d solver src eq_refl Hs) as O. set (e := fst (solve3 d solver src)) in *.
  assert (Oe : forall c i j k, in_grid s i j k -> (RtoC dt * RtoC dt * cc (ce e) c i j k - RtoC (K * dt) * RtoC (K * dt) * ep c i j k * e c i j k =
     ep c i j k * (w - C1) / w * xe c i j k - RtoC dt * cc xh c i j k - RtoC dt * RtoC dt * cc (ce xe) c i j k)%C).
  { intros c i j k Hin. specialize (O c i j k Hin). unfold op3 in O. cbn [d at_wavenumber d_k0 d_eps d_shape] in O.
    change (dcurl_h d (dcurl_e d e)) with (cc (ce e)) in O. unfold src in O. fold (ep c i j k) in O.
    rewrite !RtoC_mul. rewrite RtoC_mul in O.
    transitivity (RtoC dt * RtoC dt * (cc (ce e) c i j k - RtoC K * RtoC K * ep c i j k * e c i j k))%C; [ring |].
    rewrite O. field. auto. }
  pose (h := fun c i j k => ((xh c i j k + RtoC dt * (ce e c i j k + ce xe c i j k)) / (w - C1))%C).
  assert (Ch : forall c i j k, cc h c i j k = ((cc xh c i j k + RtoC dt * (cc (ce e) c i j k + cc (ce xe) c i j k)) / (w - C1))%C).
  { intros. unfold cc at 1. replace h with (lin (C1 / (w - C1)) (RtoC dt / (w - C1)) xh (lin C1 C1 (ce e) (ce xe)))%C.
    2:{ apply same_eq. intros c' i' j' k'. unfold lin, h. field. auto. }
    rewrite !curl_lin. fold cc. field. auto. }
  assert (CeL : forall c i j k, ce (fun c i j k => (e c i j k + xe c i j k) / w)%C c i j k = ((ce e c i j k + ce xe c i j k) / w)%C).
  { intros. unfold ce at 1. replace (fun c i j k => (e c i j k + xe c i j k) / w)%C with (lin (C1 / w) (C1 / w) e xe)%C.
    2:{ apply same_eq. intros c' i' j' k'. unfold lin. field. auto. }
    rewrite curl_lin. fold ce. field. auto. }
  exists (mkState e h).
  assert (E1 : forall c i j k, in_grid s i j k -> f_e (step g false (mkState e h) []) c i j k = ((e c i j k + xe c i j k) / w)%C).
  { intros c i j k Hin. rewrite step_e_val. cbn [f_e f_h current]. unfold zero_vfld, Model_fdtd.zero_vfld, curl_h. fold cc. fold (ep c i j k). rewrite Ch.
    assert (Ep : ep c i j k <> C0) by (apply RtoC_neq0; apply nz; auto).
    specialize (Oe c i j k Hin).
    assert (R1 : (RtoC dt * (RtoC dt * (cc (ce e) c i j k + cc (ce xe) c i j k) + cc xh c i j k) = ep c i j k * (w - C1) / w * (xe c i j k - (w - C1) * e c i j k))%C).
    { transitivity ((RtoC dt * RtoC dt * cc (ce e) c i j k - RtoC (K * dt) * RtoC (K * dt) * ep c i j k * e c i j k) + RtoC (K * dt) * RtoC (K * dt) * ep c i j k * e c i j k
        + RtoC dt * RtoC dt * cc (ce xe) c i j k + RtoC dt * cc xh c i j k)%C; [ring |]. rewrite Oe.
      assert (R2 : (RtoC (K * dt) * RtoC (K * dt) = - ((w - C1) * (w - C1) / w))%C) by (rewrite Q; field; auto). rewrite R2. field. auto. }
    transitivity (e c i j k + (RtoC dt * (RtoC dt * (cc (ce e) c i j k + cc (ce xe) c i j k) + cc xh c i j k)) / ((w - C1) * ep c i j k))%C; [field; auto |].
    rewrite R1. field. auto. }
  split; intros c i j k Hin; unfold csc, sadd, vadd; cbn [f_e f_h].
  - rewrite E1 by auto. fold xe. field. auto.
  - rewrite step_h_val by apply el_nil. unfold curl_e.
    rewrite (curl_ext s (g_dx g) false _ (fun c i j k => (e c i j k + xe c i j k) / w)%C) by auto. fold ce. rewrite CeL. cbn [f_h]. fold xh. unfold h. field. auto.
Qed.

(** ** Continuous-wave runs. *)
Section CW.
Variables (om : R) (solver : (axis -> axis -> mat) -> bvec -> bvec) (src : vfld) (sch : nat -> list source).
Notation K := (lattice_wavenumber g om).
Notation d := (at_wavenumber g K).
Hypothesis HK : K <> 0.
Hypothesis Hs : exact3 d solver src.
Hypothesis Hel : forall n, electric (sch n).
Hypothesis Hc : forall n c i j k, in_grid s i j k -> current src_e (sch n) c i j k = (- (Ci * at_time om ((INR n + 1 / 2) * dt) src c i j k))%C.
Definition steady (t : R) : fstate := mkState (at_time om t (fst (solve3 d solver src))) (at_time om (t + dt / 2) (snd (solve3 d solver src))).
Definition start : fstate := mkState (fst (solve3 d solver src)) (at_time om (dt / 2) (snd (solve3 d solver src))).
Lemma start_run : forall n, same_in s (run g false start (map sch (seq 0 n))) (steady (INR n * dt)).
Proof.
  intro n. assert (M : forall c i j k, in_grid s i j k ->
    f_e (run g false start (map sch (seq 0 n))) c i j k = at_time om (INR n * dt) (fst (solve3 d solver src)) c i j k /\
    f_h (run g false start (map sch (seq 0 n))) c i j k = at_time om ((INR n + 1 / 2) * dt) (snd (solve3 d solver src)) c i j k).
  { intros c i j k Hin. pose proof (cw_fdfd g om solver src sch W nz HK Hs Hel Hc n c i j k Hin) as Q. unfold start.
    destruct (solve3 d solver src) as [e h]. exact Q. }
  split; intros c i j k Hin; destruct (M c i j k Hin) as [A B]; [exact A |]. rewrite B. unfold steady. cbn [f_h]. f_equal. field.
Qed.
Lemma steady_0 : same_in s start (steady 0).
Proof.
  split; intros c i j k _; unfold start, steady; cbn [f_e f_h].
  - unfold at_time. replace (- (om * 0)) with 0 by ring. rewrite cis_0. ring.
  - f_equal. ring.
Qed.
Lemma gap_same : forall a b c, same_in s b c -> same_in s (gap a b) (gap a c).
Proof. intros a b c [A B]. split; intros; unfold gap; cbn [f_e f_h]; [rewrite A by auto | rewrite B by auto]; reflexivity. Qed.
Lemma gap_free : forall st0 n, same_in s (gap (run g false st0 (map sch (seq 0 n))) (steady (INR n * dt))) (free_run g false (gap st0 start) n).
Proof.
  intros st0 n. rewrite <- run_gap_map with (sch := sch). pose proof (gap_same (run g false st0 (map sch (seq 0 n))) _ _ (start_run n)) as [A B].
  split; intros c i j k Hin; [rewrite A by auto | rewrite B by auto]; reflexivity.
Qed.
Lemma never_settles : forall st0 n,
  let away k := field_energy g false (gap (run g false st0 (map sch (seq 0 k))) (steady (INR k * dt))) in
  (1 - / sqrt kap) / 2 * away 0%nat <= away n /\ away n <= 2 / (1 - / sqrt kap) * away 0%nat.
Proof.
  intros st0 n away. unfold away. rewrite !(energy_same g false _ _ (gap_free st0 _)). cbn [free_run run repeat]. split; [apply free_lower | apply uniform_bound; auto].
Qed.
Lemma lock_in_close : (forall j, exists solver, exact3 d solver j) -> forall st0, exists A, forall n0 n c i j k, (1 <= n)%nat -> in_grid s i j k ->
  let rec m := run g false st0 (map sch (seq 0 m)) in
  Cabs (lock_in_e g om rec n0 n c i j k - fst (solve3 d solver src) c i j k)%C <= A / INR n /\
  Cabs (lock_in_h g om rec n0 n c i j k - snd (solve3 d solver src) c i j k)%C <= A / INR n.
Proof.
  intros HS st0. destruct (solve_z om (gap st0 start) HK HS) as [z Hz]. exists (2 * BZ z). intros n0 n c i j k Hn Hin rec.
  assert (T : forall t, (cis (om * t) * cis (- (om * t)) = C1)%C) by (intro t; rewrite <- cis_add; replace (om * t + - (om * t)) with 0 by ring; apply cis_0).
  split.
  - apply (average_close (fun m => cis (om * (INR m * dt)) * f_e (rec m) c i j k)%C (de om z c i j k) _ C1); auto.
    + rewrite <- cis_0. apply Cabs_cis.
    + intro m. destruct (gap_free st0 m) as [A _]. specialize (A c i j k Hin). destruct (tele_step om _ _ Hz c i j k m Hin) as [S1 _]. rewrite <- S1. unfold de. rewrite <- A.
      unfold gap, steady. cbn [f_e]. fold (rec m). unfold at_time.
      transitivity (cis (om * (INR m * dt)) * cis (- (om * (INR m * dt))) * fst (solve3 d solver src) c i j k + cis (om * (INR m * dt)) * (f_e (rec m) c i j k - cis (- (om * (INR m * dt))) * fst (solve3 d solver src) c i j k))%C; [ring | rewrite T; ring].
    + intro m. apply (proj1 (d_bound om z c i j k m Hin)).
  - apply (average_close (fun m => cis (om * ((INR m + 1 / 2) * dt)) * f_h (rec m) c i j k)%C (dh om z c i j k) _ (cis (om * (dt / 2)))); auto.
    + apply Cabs_cis.
    + intro m. destruct (gap_free st0 m) as [_ A]. specialize (A c i j k Hin). destruct (tele_step om _ _ Hz c i j k m Hin) as [_ S1]. rewrite <- S1. unfold dh. rewrite <- A.
      unfold gap, steady. cbn [f_h]. fold (rec m). unfold at_time. replace ((INR m + 1 / 2) * dt) with (INR m * dt + dt / 2) by field.
      pose proof (T (INR m * dt + dt / 2)) as T'. set (t := INR m * dt + dt / 2) in *.
      assert (P : cis (om * t) = (cis (om * (dt / 2)) * cis (om * (INR m * dt)))%C) by (rewrite <- cis_add; f_equal; unfold t; ring).
      transitivity (cis (om * t) * cis (- (om * t)) * snd (solve3 d solver src) c i j k + cis (om * t) * (f_h (rec m) c i j k - cis (- (om * t)) * snd (solve3 d solver src) c i j k))%C; [ring |]. rewrite T', P. ring.
    + intro m. apply (proj2 (d_bound om z c i j k m Hin)).
Qed.
End CW.

(** ** Frequencies above the band of the grid have a solution for every source. *)
Lemma no_mode : forall om e, 2 / (sqrt kap * dt) < Rabs (lattice_wavenumber g om) ->
  (forall c i j k, in_grid s i j k -> op3 (at_wavenumber g (lattice_wavenumber g om)) e c i j k = C0) -> forall c i j k, in_grid s i j k -> e c i j k = C0.
Proof.
  intros om e HK O. set (K := lattice_wavenumber g om) in *. pose proof (eps_t_lower g false kap He) as L.
  assert (Dt : 0 < dt) by (apply dt_pos; auto). assert (Sk : 0 < sqrt kap) by (apply sqrt_lt_R0; lra).
  assert (KA : 0 < Rabs K). { eapply Rlt_trans; [| exact HK]. apply Rdiv_lt_0_compat; [lra | apply Rmult_lt_0_compat; auto]. }
  assert (Kn : K <> 0). { intro Z. rewrite Z, Rabs_R0 in KA. lra. }
  set (st := mkState e (vscal (/ K) (curl_e g e))). pose proof (cross_le_energy g false W kap ltac:(lra) L st) as X.
  rewrite energy_value in X. unfold st in X. cbn [f_e f_h] in X. rewrite !rin_scal_l, !rin_scal_r in X.
  assert (N : rin s (curl_e g e) (curl_e g e) = K * K * Qe g false e).
  { rewrite curl_rin, rin_sym. unfold Qe. rewrite <- rin_scal_l. apply rin_ext; intros c i j k Hin; [| reflexivity].
    specialize (O c i j k Hin). unfold op3 in O. cbn [at_wavenumber d_k0 d_eps d_shape] in O.
    change (dcurl_h (at_wavenumber g K) (dcurl_e (at_wavenumber g K) e)) with (curl_h g (curl_e g e)) in O. unfold vscal, displacement.
    transitivity ((curl_h g (curl_e g e) c i j k - RtoC (K * K) * RtoC (eps_t g false c i j k) * e c i j k) + RtoC (K * K) * RtoC (eps_t g false c i j k) * e c i j k)%C; [ring | rewrite O; ring]. }
  rewrite N in X. set (q := Qe g false e) in *.
  assert (Q0 : 0 <= q). { pose proof (Qe_lower g false kap L e) as A. pose proof (nrm_pos s e). unfold q. nra. }
  assert (X2 : dt * (Rabs K * q) <= / sqrt kap * (2 * q)).
  { replace (dt * (/ K * (K * K * q))) with (K * (dt * q)) in X by (field; auto). rewrite Rabs_mult, (Rabs_right (dt * q)) in X by (apply Rle_ge, Rmult_le_pos; lra).
    replace (q + / K * (/ K * (K * K * q))) with (2 * q) in X by (field; auto). lra. }
  assert (Z : q = 0).
  { destruct (Rle_lt_or_eq_dec 0 q Q0) as [P | P]; [exfalso | auto].
    assert (Y : dt * (2 / (sqrt kap * dt)) * q < dt * Rabs K * q) by (apply Rmult_lt_compat_r; auto; apply Rmult_lt_compat_l; auto).
    replace (dt * (2 / (sqrt kap * dt)) * q) with (/ sqrt kap * (2 * q)) in Y by (field; lra). lra. }
  assert (E0 : field_energy g false (mkState e (vscal 0 e)) = 0).
  { rewrite energy_value. cbn [f_e f_h]. rewrite rin_scal_l. fold q. rewrite Z. ring. }
  intros c i j k Hin. destruct (cell_e (mkState e (vscal 0 e)) c i j k Hin) as [A _]. cbn [f_e] in A. rewrite E0 in A.
  pose proof (Cn2_nonneg (e c i j k)). destruct (e c i j k) as [xr xi]. unfold Cn2 in *. cbn [re im] in *. apply C_eq; cbn [re im C0]; nra.
Qed.
Lemma above_band : forall om, 2 / (sqrt kap * dt) < Rabs (lattice_wavenumber g om) -> forall j, exists solver, exact3 (at_wavenumber g (lattice_wavenumber g om)) solver j.
Proof.
  intros om HK j. set (d := at_wavenumber g (lattice_wavenumber g om)).
  destruct (block_onto (mkCfdfd s (d_dxf d) (d_dxb d) (d_bloch d) 0 (fun _ _ _ => C0)) (mat3 d) (fun c r => RtoC (d_k0 d) * ravel s (j c) r)%C) as [x Hx].
  - cbn [cf_shape]. intros x Hx. assert (Z : forall c i j k, in_grid s i j k -> unravel s (x c) i j k = C0).
    { intros c i j' k. revert c i j' k. apply (no_mode om (fun c => unravel s (x c)) HK). intros c i j' k Hin. fold d. rewrite <- mat3_op3 by auto.
      pose proof Hin as (Hi & Hj & Hl). rewrite <- (Hx c (ridx s i j' k)) by (apply ridx_bound; auto).
      change (dn d) with (npix s). change (d_shape d) with s. unfold bmatvec. f_equal; [f_equal |]; apply matvec_ext; intros q Hq; apply ravel_unravel; exact Hq. }
    intros c r Hr. rewrite <- (ravel_unravel s (x c) r Hr). destruct (ridx_inv s r Hr) as (i & j' & k & Hg & ->). pose proof Hg as (Hi & Hj & Hl). rewrite ravel_ridx by auto. apply Z; auto.
  - exists (fun _ _ => x). intros c r Hr. exact (Hx c r Hr).
Qed.
End Mem.
