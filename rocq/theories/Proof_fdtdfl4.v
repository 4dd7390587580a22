(** Rounding errors of a step and of a run, in norm. *)
From Coq Require Import Reals Lra Lia Psatz List Arith Bool FunctionalExtensionality.
From Verif Require Import Cx Arr Model_yee Spec_yee Proof_yee Proof_yee2 Model_fdtd Spec_fdtd Proof_fdtd Proof_energy Proof_energy2 Proof_fdtd3 Proof_sym Proof_harm2.
From Verif Require Import Spec_conv Proof_conv3 Proof_duhamel Proof_adj Model_fdtdfl Spec_fdtdfl Proof_fdtdfl Proof_fdtdfl2 Proof_fdtdfl3.
Import ListNotations.
Local Open Scope R_scope.

Section Run.
Variable g : fgrid.
Variables (ar : farith) (mc : mconst) (d u e lo hi emax : R).
Hypothesis W : wf_grid g.
Hypothesis He1 : forall i j k, in_grid (g_shape g) i j k -> 1 <= g_eps g i j k <= emax.
Hypothesis Ha : farith_ok d u lo hi ar.
Hypothesis Hc : const_ok e lo hi g mc.
Let t := d + e.
Hypothesis Ht : t <= 1 / 100.
Let s := g_shape g.
Let dt := dt_of g.
Let V := 12 * u * (1 + dt).
Let Hpos := epsp g emax He1.
Let c3 := cells3 g.
Lemma one_le : forall c i j k, in_grid s i j k -> 1 <= eps_t g false c i j k.
Proof. intros c i j k Hin. apply (epsr g emax He1 c i j k Hin). Qed.
Lemma emax1 : 1 <= emax.
Proof.
  destruct W as (_ & Q & _). assert (I : in_grid s 0 0 0) by (unfold in_grid, s; pose proof (Q AX); pose proof (Q AY); pose proof (Q AZ); lia).
  pose proof (He1 0%nat 0%nat 0%nat I). lra.
Qed.
Lemma V0 : 0 <= V.
Proof. unfold V. pose proof (uu0 ar d u lo hi Ha). pose proof (dtp g W) as P. fold dt in P. apply Rmult_le_pos; lra. Qed.
Lemma Cabs_realp : forall x, 0 <= x -> Cabs (RtoC x) = x.
Proof. exact Cabs_RtoC. Qed.
Lemma Cabs_self : forall z, Cabs (RtoC (Cabs z)) = Cabs z.
Proof. intro z. apply Cabs_realp, Cabs_nonneg. Qed.
(** A field bounded cell by cell by a combination of others. *)
Lemma est_comb : forall f a b c t' v, 0 <= t' -> 0 <= v -> (forall x i j k, in_grid s i j k -> 0 <= b x i j k) ->
  (forall x i j k, in_grid s i j k -> Cabs (f x i j k) <= t' * (Cabs (a x i j k) + b x i j k + Cabs (c x i j k)) + v) ->
  nst g (est f) <= t' * (nst g (est a) + nst g (est (realf b)) + nst g (est c)) + nst g (est (realf (fun _ _ _ _ => v))).
Proof.
  intros f a b c t' v Ht' Hv Hb H.
  apply Rle_trans with (nst g (est (vadd (vscal t' (vadd (vadd (absf a) (realf b)) (absf c))) (realf (fun _ _ _ _ => v))))).
  - apply (nst_est_mono g Hpos). intros x i j k Hin. eapply Rle_trans; [apply (H x i j k Hin) |]. unfold vadd, vscal, absf, realf.
    pose proof (Hb x i j k Hin). pose proof (Cabs_nonneg (a x i j k)). pose proof (Cabs_nonneg (c x i j k)).
    rewrite <- !RtoC_add, <- RtoC_mul, <- RtoC_add. rewrite Cabs_realp; [lra |]. apply Rplus_le_le_0_compat; [apply Rmult_le_pos; lra | exact Hv].
  - eapply Rle_trans; [apply (est_add g Hpos) |]. apply Rplus_le_compat_r. rewrite (est_scal g) by exact Ht'. apply Rmult_le_compat_l; [exact Ht' |].
    eapply Rle_trans; [apply (est_add g Hpos) |]. apply Rplus_le_compat; [eapply Rle_trans; [apply (est_add g Hpos) |]; apply Rplus_le_compat_r |];
    apply (nst_est_mono g Hpos); intros; unfold absf; rewrite Cabs_self; lra.
Qed.
Lemma hst_comb : forall f a b c t' v, 0 <= t' -> 0 <= v -> (forall x i j k, in_grid s i j k -> 0 <= b x i j k) ->
  (forall x i j k, in_grid s i j k -> Cabs (f x i j k) <= t' * (Cabs (a x i j k) + b x i j k + Cabs (c x i j k)) + v) ->
  nst g (hst f) <= t' * (nst g (hst a) + nst g (hst (realf b)) + nst g (hst c)) + nst g (hst (realf (fun _ _ _ _ => v))).
Proof.
  intros f a b c t' v Ht' Hv Hb H.
  apply Rle_trans with (nst g (hst (vadd (vscal t' (vadd (vadd (absf a) (realf b)) (absf c))) (realf (fun _ _ _ _ => v))))).
  - apply (nst_hst_mono g Hpos). intros x i j k Hin. eapply Rle_trans; [apply (H x i j k Hin) |]. unfold vadd, vscal, absf, realf.
    pose proof (Hb x i j k Hin). pose proof (Cabs_nonneg (a x i j k)). pose proof (Cabs_nonneg (c x i j k)).
    rewrite <- !RtoC_add, <- RtoC_mul, <- RtoC_add. rewrite Cabs_realp; [lra |]. apply Rplus_le_le_0_compat; [apply Rmult_le_pos; lra | exact Hv].
  - eapply Rle_trans; [apply (hst_add g Hpos) |]. apply Rplus_le_compat_r. rewrite (hst_scal g) by exact Ht'. apply Rmult_le_compat_l; [exact Ht' |].
    eapply Rle_trans; [apply (hst_add g Hpos) |]. apply Rplus_le_compat; [eapply Rle_trans; [apply (hst_add g Hpos) |]; apply Rplus_le_compat_r |];
    apply (nst_hst_mono g Hpos); intros; unfold absf; rewrite Cabs_self; lra.
Qed.
Lemma hst_le_est : forall f, nst g (hst f) <= nst g (est f).
Proof.
  intro f. unfold nst. apply sqrt_le_1_alt. unfold field_energy, sum3, est, hst. cbn [f_e f_h].
  assert (X : forall c, rgrid_sum (g_shape g) (fun i j k => eps_t g false c i j k * Cn2 (zero_vfld c i j k) + Cn2 (f c i j k)) <=
    rgrid_sum (g_shape g) (fun i j k => eps_t g false c i j k * Cn2 (f c i j k) + Cn2 (zero_vfld c i j k))).
  { intro c. apply rgrid_sum_le. intros i j k Hin. unfold zero_vfld. rewrite zero_n2. pose proof (one_le c i j k Hin). pose proof (Cn2_nonneg (f c i j k)). nra. }
  pose proof (X AX); pose proof (X AY); pose proof (X AZ). lra.
Qed.
Lemma curl_hst : forall f, nst g (hst (vscal dt (curl_e g f))) <= 3 * nst g (hst f).
Proof.
  intro f. eapply Rle_trans; [| apply (Q_norm g W false f)]. apply (nst_hst_mono g Hpos). intros c i j k Hin. unfold vscal, realf. pose proof (dtp g W) as P. fold dt in P |- *.
  pose proof (Qf_pos g false f c i j k) as Q0. rewrite Cabs_realp by (apply Rmult_le_pos; lra).
  replace (RtoC dt * curl_e g f c i j k)%C with (curl_e g f c i j k * RtoC dt)%C by ring. rewrite Cabs_scal by lra. rewrite Rmult_comm. apply Rmult_le_compat_l; [lra |]. apply (Q_ge g).
Qed.
Variable y : fstate.
Variable l : list source.
Hypothesis Hl : (length l <= 1)%nat.
Let n := nst g y.
Let p := nst g (push g l).
Let Ve := V * sqrt emax * sqrt c3.
Let y' := step_fl ar g mc y l.
Let re_ := f_e (gap y' (step g false y l)).
Lemma n0 : 0 <= n. Proof. apply nst_pos. Qed.
Lemma p0 : 0 <= p. Proof. apply nst_pos. Qed.
Lemma Vh_le : nst g (hst (realf (fun _ _ _ _ => V))) <= Ve.
Proof.
  rewrite hst_const by exact V0. unfold Ve. rewrite Rmult_assoc. apply Rmult_le_compat_l; [exact V0 |]. fold c3. pose proof (sqrt_pos c3).
  assert (1 <= sqrt emax) by (rewrite <- sqrt_1; apply sqrt_le_1_alt, emax1). nra.
Qed.
Lemma Vest_le : nst g (est (realf (fun _ _ _ _ => V))) <= Ve.
Proof.
  eapply Rle_trans; [apply (est_weight g emax) |].
  - intros c i j k Hin. apply (epsr g emax He1 c i j k Hin).
  - pose proof emax1. lra.
  - rewrite hst_const by exact V0. unfold Ve. fold c3. right. ring.
Qed.
Lemma Qe_le : nst g (est (realf (fun c i j k => dt * Qf g true (f_h y) c i j k / eps_t g false c i j k))) <= 3 * n.
Proof.
  eapply Rle_trans; [apply (est_div g (fun c i j k => dt * Qf g true (f_h y) c i j k) one_le) |]. eapply Rle_trans; [apply (Q_norm g W) |].
  pose proof (nst_hst_le g Hpos y). unfold n. lra.
Qed.
Lemma re_small : nst g (est re_) <= 11 * t * (4 * n + p) + Ve.
Proof.
  pose proof (tt0 g ar mc d u e lo hi Ha Hc) as T0. fold t in T0.
  eapply Rle_trans; [apply (est_comb re_ (f_e y) (fun c i j k => dt * Qf g true (f_h y) c i j k / eps_t g false c i j k) (f_e (push g l)) (11 * t) V) |].
  - lra.
  - exact V0.
  - intros c i j k Hin. pose proof (one_le c i j k Hin). pose proof (Qf_pos g true (f_h y) c i j k). pose proof (dtp g W) as P. fold dt in P.
    assert (0 < / eps_t g false c i j k) by (apply Rinv_0_lt_compat; lra). unfold Rdiv. apply Rmult_le_pos; [apply Rmult_le_pos |]; lra.
  - intros c i j k Hin. exact (e_cell g ar mc d u e lo hi emax W He1 Ha Hc Ht y l c i j k Hl Hin).
  - pose proof (nst_est_le g Hpos y) as A1. fold n in A1. pose proof Qe_le as A2. pose proof (nst_est_le g Hpos (push g l)) as A3. fold p in A3. pose proof Vest_le as A4.
    assert (11 * t * (nst g (est (f_e y)) + nst g (est (realf (fun c i j k => dt * Qf g true (f_h y) c i j k / eps_t g false c i j k))) + nst g (est (f_e (push g l)))) <= 11 * t * (4 * n + p)).
    { apply Rmult_le_compat_l; lra. }
    lra.
Qed.
Lemma e1_small : nst g (est (f_e (step g false y l))) <= 4 * n + p.
Proof.
  eapply Rle_trans; [apply (est_comb (f_e (step g false y l)) (f_e y) (fun c i j k => dt * Qf g true (f_h y) c i j k / eps_t g false c i j k) (f_e (push g l)) 1 0) |].
  - lra.
  - lra.
  - intros c i j k Hin. pose proof (one_le c i j k Hin). pose proof (Qf_pos g true (f_h y) c i j k). pose proof (dtp g W) as P. fold dt in P.
    assert (0 < / eps_t g false c i j k) by (apply Rinv_0_lt_compat; lra). unfold Rdiv. apply Rmult_le_pos; [apply Rmult_le_pos |]; lra.
  - intros c i j k Hin. rewrite step_e_val. pose proof (one_le c i j k Hin) as E1. pose proof (dtp g W) as P. fold dt in P |- *. unfold push. cbn [f_e]. fold dt.
    rewrite Rplus_0_r, Rmult_1_l. eapply Rle_trans; [apply Cabs_sub |]. apply Rplus_le_compat_r. eapply Rle_trans; [apply Cabs_add |]. apply Rplus_le_compat_l.
    rewrite Cabs_scal, Cabs_div by lra. pose proof (Q_ge g true (f_h y) c i j k) as Q. change (curl_fn (diff_fn (g_shape g) (g_dx g) true) (f_h y) c i j k) with (curl_h g (f_h y) c i j k) in Q.
    assert (0 < / eps_t g false c i j k) by (apply Rinv_0_lt_compat; lra). unfold Rdiv.
    replace (dt * Qf g true (f_h y) c i j k * / eps_t g false c i j k) with (Qf g true (f_h y) c i j k * / eps_t g false c i j k * dt) by ring.
    apply Rmult_le_compat_r; [lra |]. apply Rmult_le_compat_r; lra.
  - pose proof (nst_est_le g Hpos y) as A1. fold n in A1. pose proof Qe_le as A2. pose proof (nst_est_le g Hpos (push g l)) as A3. fold p in A3.
    assert (A4 : nst g (est (realf (fun _ _ _ _ => 0))) <= 0).
    { eapply Rle_trans; [apply (est_weight g emax) |].
      - intros c i j k Hin. apply (epsr g emax He1 c i j k Hin).
      - pose proof emax1. lra.
      - rewrite hst_const by lra. lra. }
    lra.
Qed.
Lemma e'_small : nst g (hst (f_e y')) <= 4 * n + p + nst g (est re_).
Proof.
  eapply Rle_trans; [apply hst_le_est |]. replace (f_e y') with (vadd (f_e (step g false y l)) re_).
  2:{ apply same_eq. intros c i j k. unfold re_, gap, vadd. cbn [f_e]. ring. }
  eapply Rle_trans; [apply (est_add g Hpos) |]. apply Rplus_le_compat_r. apply e1_small.
Qed.
Definition rh : vfld := fun c i j k => (f_h y' c i j k - (f_h y c i j k - curl_e g (f_e y') c i j k * RtoC dt - current src_h l c i j k * RtoC dt))%C.
Lemma rh_small : nst g (hst rh) <= 11 * t * (13 * n + 4 * p + 3 * nst g (est re_)) + Ve.
Proof.
  pose proof (tt0 g ar mc d u e lo hi Ha Hc) as T0. fold t in T0.
  eapply Rle_trans; [apply (hst_comb rh (f_h y) (fun c i j k => dt * Qf g false (f_e y') c i j k) (f_h (push g l)) (11 * t) V) |].
  - lra.
  - exact V0.
  - intros c i j k Hin. pose proof (Qf_pos g false (f_e y') c i j k). pose proof (dtp g W) as P. fold dt in P. apply Rmult_le_pos; lra.
  - intros c i j k Hin. exact (h_cell g ar mc d u e lo hi W Ha Hc Ht (f_e y') y l c i j k Hl Hin).
  - pose proof (nst_hst_le g Hpos y) as A1. fold n in A1. pose proof (Q_norm g W false (f_e y')) as A2. fold dt in A2. pose proof (nst_hst_le g Hpos (push g l)) as A3. fold p in A3.
    pose proof Vh_le as A4. pose proof e'_small as A5.
    assert (11 * t * (nst g (hst (f_h y)) + nst g (hst (realf (fun c i j k => dt * Qf g false (f_e y') c i j k))) + nst g (hst (f_h (push g l)))) <= 11 * t * (13 * n + 4 * p + 3 * nst g (est re_))).
    { apply Rmult_le_compat_l; lra. }
    lra.
Qed.
Lemma step_err : nst g (gap y' (step g false y l)) <= 340 * t * (n + p) + 6 * Ve.
Proof.
  pose proof (tt0 g ar mc d u e lo hi Ha Hc) as T0. fold t in T0.
  eapply Rle_trans; [apply (nst_parts g Hpos) |]. fold re_.
  replace (f_h (gap y' (step g false y l))) with (vadd rh (vscal (- 1) (vscal dt (curl_e g re_)))).
  2:{ unfold re_, gap. cbn [f_e f_h].
      replace (fun c i j k => f_e y' c i j k - f_e (step g false y l) c i j k)%C with (lin C1 (- C1) (f_e y') (f_e (step g false y l))).
      2:{ apply same_eq. intros c' i' j' k'. unfold lin. ring. }
      rewrite h_step. unfold rh. apply same_eq. intros c i j k. unfold vadd, vscal, curl_e. rewrite curl_lin. fold dt. apply C_eq; cbn [re im RtoC Csub Cmul Cadd Copp C1]; ring. }
  assert (Nn : nst g (hst (vscal (-1) (vscal dt (curl_e g re_)))) <= nst g (hst (vscal dt (curl_e g re_)))).
  { apply (nst_hst_mono g Hpos). intros c i j k _. unfold vscal at 1. replace (RtoC (-1) * vscal dt (curl_e g re_) c i j k)%C with (- vscal dt (curl_e g re_) c i j k)%C.
    - rewrite Cabs_opp. lra.
    - apply C_eq; cbn [re im RtoC Cmul Copp]; ring. }
  pose proof (hst_add g Hpos rh (vscal (-1) (vscal dt (curl_e g re_)))) as A1. pose proof (curl_hst re_) as A2. pose proof (hst_le_est re_) as A3.
  pose proof rh_small as A4. pose proof re_small as A5. pose proof n0. pose proof p0. pose proof (nst_pos g (est re_)) as A6.
  assert (Ve0 : 0 <= Ve) by (unfold Ve; apply Rmult_le_pos; [apply Rmult_le_pos; [exact V0 | apply sqrt_pos] | apply sqrt_pos]).
  set (q := nst g (est re_)) in *. assert (33 * t * q <= 33 / 100 * q) by (apply Rmult_le_compat_r; lra).
  assert (0 <= t * n) by (apply Rmult_le_pos; assumption). assert (0 <= t * p) by (apply Rmult_le_pos; assumption). lra.
Qed.
End Run.

Section Runs.
Variable g : fgrid.
Variables (ar : farith) (mc : mconst) (d u e lo hi emax : R).
Hypothesis W : wf_grid g.
Hypothesis He1 : forall i j k, in_grid (g_shape g) i j k -> 1 <= g_eps g i j k <= emax.
Hypothesis Ha : farith_ok d u lo hi ar.
Hypothesis Hc : const_ok e lo hi g mc.
Let t := d + e.
Hypothesis Ht : t <= 1 / 100.
Let W0 := 6 * (12 * u * (1 + dt_of g) * sqrt emax).
Variables (st0 : fstate) (sch : nat -> list source).
Hypothesis Hs : forall n, (length (sch n) <= 1)%nat.
Let ex (n : nat) := run g false st0 (map sch (seq 0 n)).
Let fl (n : nat) := run_fl ar g mc st0 (map sch (seq 0 n)).
Let Hpos := epsp g emax He1.
Lemma run_fl_app1 : forall l st x, run_fl ar g mc st (l ++ [x]) = step_fl ar g mc (run_fl ar g mc st l) x.
Proof. induction l; intros; [reflexivity |]. cbn [app run_fl]. apply IHl. Qed.
Lemma ex_S : forall n, ex (S n) = step g false (ex n) (sch n).
Proof. intro n. unfold ex. rewrite seq_S, map_app. cbn [map plus]. apply run_app1. Qed.
Lemma fl_S : forall n, fl (S n) = step_fl ar g mc (fl n) (sch n).
Proof. intro n. unfold fl. rewrite seq_S, map_app. cbn [map plus]. apply run_fl_app1. Qed.
Lemma gap_S : forall n, gap (fl (S n)) (ex (S n)) = sadd (step g false (gap (fl n) (ex n)) []) (gap (step_fl ar g mc (fl n) (sch n)) (step g false (fl n) (sch n))).
Proof. intro n. rewrite ex_S, fl_S, <- step_gap with (l := sch n). apply state_eq; intros c i j k; unfold sadd, vadd, gap; cbn [f_e f_h]; ring. Qed.
Lemma c3_pos : 0 < cells3 g.
Proof. exact (cells3_pos g W). Qed.
Lemma rms_n : forall st, rms g st = nst g st / sqrt (cells3 g).
Proof. exact (rms_nst g W). Qed.
Lemma step_rms : forall n, rms g (gap (step_fl ar g mc (fl n) (sch n)) (step g false (fl n) (sch n))) <= 340 * t * (rms g (fl n) + rms g (push g (sch n))) + W0.
Proof.
  intro n. pose proof (step_err g ar mc d u e lo hi emax W He1 Ha Hc Ht (fl n) (sch n) (Hs n)) as B. pose proof (sqrt_lt_R0 _ c3_pos) as Sp. rewrite !rms_n.
  apply (Rmult_le_reg_r (sqrt (cells3 g))); [exact Sp |]. unfold Rdiv at 1. rewrite Rmult_assoc, Rinv_l, Rmult_1_r by lra. eapply Rle_trans; [exact B |].
  right. unfold t, W0. field. lra.
Qed.
Variable Bd : nat -> R.
Hypothesis HB : forall st n, nst g (free_run g false st n) <= Bd n * nst g st.
Hypothesis Bp : forall n, 0 <= Bd n.
Lemma gap_self : nst g (gap st0 st0) = 0.
Proof.
  pose proof (rms_self g st0 W) as Z. rewrite rms_n in Z. pose proof (sqrt_lt_R0 _ c3_pos) as Sp. apply (Rmult_eq_reg_r (/ sqrt (cells3 g))); [| apply Rinv_neq_0_compat; lra]. unfold Rdiv in Z. lra.
Qed.
Lemma run_err : forall N Y P, (forall n, (n < N)%nat -> rms g (fl n) <= Y) -> (forall n, (n < N)%nat -> rms g (push g (sch n)) <= P) ->
  rms g (gap (fl N) (ex N)) <= Rsum N (fun k => Bd (N - 1 - k)%nat) * (340 * t * (Y + P) + W0).
Proof.
  intros N Y P HY HP. pose proof (tt0 g ar mc d u e lo hi Ha Hc) as T0. fold t in T0.
  pose proof (duhamel g Hpos Bd HB (fun n => gap (fl n) (ex n)) (fun n => gap (step_fl ar g mc (fl n) (sch n)) (step g false (fl n) (sch n))) gap_S N 0%nat) as D. cbv beta in D.
  cbn [free_run repeat run plus] in D. change (fl 0) with st0 in D. change (ex 0) with st0 in D. rewrite gap_self, Rmult_0_r, Rplus_0_l in D.
  pose proof (sqrt_lt_R0 _ c3_pos) as Sp. rewrite rms_n. apply (Rmult_le_reg_r (sqrt (cells3 g))); [exact Sp |]. unfold Rdiv at 1. rewrite Rmult_assoc, Rinv_l, Rmult_1_r by lra.
  eapply Rle_trans; [exact D |]. rewrite Rmult_assoc, (Rmult_comm (Rsum _ _)), <- Rsum_scal. apply Rsum_le. intros k Hk. rewrite Rmult_comm. apply Rmult_le_compat_r; [apply Bp |].
  pose proof (step_rms k) as B. rewrite rms_n in B. pose proof (HY k Hk) as Y1. pose proof (HP k Hk) as P1.
  assert (B2 : nst g (gap (step_fl ar g mc (fl k) (sch k)) (step g false (fl k) (sch k))) / sqrt (cells3 g) <= 340 * t * (Y + P) + W0).
  { eapply Rle_trans; [exact B |]. apply Rplus_le_compat_r. apply Rmult_le_compat_l; lra. }
  apply (Rmult_le_reg_r (/ sqrt (cells3 g))); [apply Rinv_0_lt_compat; exact Sp |].
  rewrite (Rmult_assoc _ (sqrt (cells3 g))), Rinv_r, Rmult_1_r by lra. exact B2.
Qed.
Lemma fl_le : forall n, rms g (fl n) <= rms g (ex n) + rms g (gap (fl n) (ex n)).
Proof.
  intro n. rewrite !rms_n. pose proof (sqrt_lt_R0 _ c3_pos) as Sp. assert (0 < / sqrt (cells3 g)) by (apply Rinv_0_lt_compat; exact Sp).
  pose proof (nst_triangle g Hpos (ex n) (gap (fl n) (ex n))) as T. replace (sadd (ex n) (gap (fl n) (ex n))) with (fl n) in T.
  2:{ apply state_eq; intros c i j k; unfold sadd, vadd, gap; cbn [f_e f_h]; ring. }
  unfold Rdiv. rewrite <- Rmult_plus_distr_r. apply Rmult_le_compat_r; lra.
Qed.
Lemma W0_pos : 0 <= W0.
Proof.
  unfold W0. pose proof (uu0 ar d u lo hi Ha). pose proof (dtp g W). pose proof (sqrt_pos emax).
  assert (0 <= 12 * u * (1 + dt_of g)) by (apply Rmult_le_pos; lra). assert (0 <= 12 * u * (1 + dt_of g) * sqrt emax) by (apply Rmult_le_pos; lra). lra.
Qed.
(** If the exact run is bounded, so is the computed one, as long as N roundings of relative size t are amplified to less than half. *)
Lemma run_err2 : forall N X P T, (forall n, (n < N)%nat -> rms g (ex n) <= X) -> (forall n, (n < N)%nat -> rms g (push g (sch n)) <= P) ->
  (forall n, (n <= N)%nat -> Rsum n (fun k => Bd (n - 1 - k)%nat) <= T) -> 680 * T * t <= 1 -> 0 <= X -> 0 <= P ->
  rms g (gap (fl N) (ex N)) <= 2 * T * (340 * t * (X + P) + W0).
Proof.
  intros N X P T HX HP HT Hs1 X0 P0. pose proof (tt0 g ar mc d u e lo hi Ha Hc) as T0. fold t in T0. pose proof W0_pos as W1.
  assert (Tp : 0 <= T) by (specialize (HT 0%nat ltac:(lia)); cbn [Rsum] in HT; exact HT).
  set (F := 340 * t * (X + P) + W0). assert (F0 : 0 <= F) by (unfold F; apply Rplus_le_le_0_compat; [apply Rmult_le_pos; lra | exact W1]).
  assert (TF : 0 <= T * F) by (apply Rmult_le_pos; assumption).
  assert (A : forall n, (n <= N)%nat -> rms g (gap (fl n) (ex n)) <= 2 * T * F).
  { induction n as [n IH] using (well_founded_induction lt_wf). intro Hn.
    assert (Yb : forall m, (m < n)%nat -> rms g (fl m) <= X + 2 * T * F).
    { intros m Hm. eapply Rle_trans; [apply fl_le |]. apply Rplus_le_compat; [apply HX; lia | apply IH; lia]. }
    eapply Rle_trans; [apply (run_err n (X + 2 * T * F) P Yb); intros m Hm; apply HP; lia |].
    assert (G0 : 0 <= 340 * t * (X + 2 * T * F + P) + W0) by (apply Rplus_le_le_0_compat; [apply Rmult_le_pos; lra | exact W1]).
    eapply Rle_trans; [apply Rmult_le_compat_r; [exact G0 | apply HT; exact Hn] |].
    replace (T * (340 * t * (X + 2 * T * F + P) + W0)) with (T * F + (680 * T * t) * (T * F)) by (unfold F; ring).
    assert (680 * T * t * (T * F) <= 1 * (T * F)) by (apply Rmult_le_compat_r; lra). lra. }
  apply A. lia.
Qed.
End Runs.
