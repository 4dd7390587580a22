(** Beta distributed splits and phases (C147). *)
From Coq Require Import Reals Lra Lia.
From Coquelicot Require Import Coquelicot.
From Verif Require Import Cx Model_coupling Model_beta Spec_beta.
Local Open Scope R_scope.

Section beta.
Variables (a b : nat).
Let w (x : R) := x ^ (a - 1) * (1 - x) ^ (b - 1).
Lemma w_cont : forall x, continuous w x.
Proof.
  intro x. apply (ex_derive_continuous w). unfold w. auto_derive. auto.
Qed.
Lemma w_int : forall x y, ex_RInt w x y.
Proof. intros x y. apply (ex_RInt_continuous w). intros; apply w_cont. Qed.
Lemma w_pos : forall x, 0 < x < 1 -> 0 < w x.
Proof. intros x H. unfold w. apply Rmult_lt_0_compat; apply pow_lt; lra. Qed.
Lemma w_nonneg : forall x, 0 <= x <= 1 -> 0 <= w x.
Proof. intros x H. unfold w. apply Rmult_le_pos; apply pow_le; lra. Qed.
Lemma int_pos : forall x y, 0 <= x -> x < y -> y <= 1 -> 0 < RInt w x y.
Proof. intros x y Hx Hxy Hy. apply RInt_gt_0; auto; intros z Hz; [apply w_pos; lra | apply w_cont]. Qed.
Lemma chasles : forall x y z, RInt w x y + RInt w y z = RInt w x z.
Proof. intros x y z. apply (RInt_Chasles w x y z); apply w_int. Qed.
Lemma phase_int : forall al be, RInt (fun t => w (cos (t / 2) ^ 2) * sin (t / 2) * cos (t / 2)) al be = RInt w (cos (be / 2) ^ 2) (cos (al / 2) ^ 2).
Proof.
  intros al be.
  pose proof (is_RInt_comp w (fun t => cos (t / 2) ^ 2) (fun t => - (sin (t / 2) * cos (t / 2))) al be) as H.
  assert (E : is_RInt (fun y => scal (- (sin (y / 2) * cos (y / 2))) (w (cos (y / 2) ^ 2))) al be (RInt w (cos (al / 2) ^ 2) (cos (be / 2) ^ 2))).
  { apply H.
    - intros x _. apply w_cont.
    - intros x _. split; [auto_derive; [auto | cbn; unfold Rdiv; field] |]. apply (ex_derive_continuous (fun t => - (sin (t / 2) * cos (t / 2)))). auto_derive. auto. }
  apply (is_RInt_opp (V := R_CompleteNormedModule)) in E. apply (is_RInt_unique (V := R_CompleteNormedModule)) in E.
  rewrite <- (opp_RInt_swap w (cos (al / 2) ^ 2) (cos (be / 2) ^ 2)) by apply w_int.
  etransitivity; [| exact E]. apply RInt_ext. intros x _. unfold opp, scal; cbn. unfold mult; cbn. ring.
Qed.
Lemma cdf_mono : forall x y, 0 <= x <= 1 -> 0 <= y <= 1 -> (x <= y <-> beta_cdf a b x <= beta_cdf a b y).
Proof.
  intros x y Hx Hy. unfold beta_cdf. fold w. pose proof (int_pos 0 1 ltac:(lra) ltac:(lra) ltac:(lra)) as P.
  assert (M : forall u v, 0 <= u -> u < v -> v <= 1 -> RInt w 0 u / RInt w 0 1 < RInt w 0 v / RInt w 0 1).
  { intros u v Hu Huv Hv. apply Rmult_lt_compat_r; [apply Rinv_0_lt_compat; auto |]. rewrite <- (chasles 0 u v). pose proof (int_pos u v Hu Huv Hv). lra. }
  split; intro H.
  - destruct (Rle_lt_or_eq_dec x y H) as [L | ->]; [| apply Rle_refl]. apply Rlt_le, M; lra.
  - destruct (Rle_lt_dec x y) as [L | L]; auto. pose proof (M y x ltac:(lra) L ltac:(lra)). lra.
Qed.
End beta.

Lemma pdf_total : forall B a b, beta_function B -> (1 <= a)%nat -> (1 <= b)%nat -> RInt (fun x => beta_pdf B x a b) 0 1 = 1 /\ forall x, 0 <= x <= 1 -> 0 <= beta_pdf B x a b.
Proof.
  intros B a b HB Ha Hb. unfold beta_pdf. rewrite (HB a b Ha Hb). assert (P : 0 < RInt (fun x => x ^ (a - 1) * (1 - x) ^ (b - 1)) 0 1) by (apply (int_pos a b 0 1); lra).
  remember (RInt (fun x => x ^ (a - 1) * (1 - x) ^ (b - 1)) 0 1) as K eqn:EK. cbn in K. split.
  - rewrite (RInt_ext _ (fun x => scal (/ K) (x ^ (a - 1) * (1 - x) ^ (b - 1)))) by (intros; unfold scal; cbn; unfold mult; cbn; unfold Rdiv; rewrite ?Rinv_mult; ring).
    rewrite (RInt_scal (V := R_CompleteNormedModule) (fun x => x ^ (a - 1) * (1 - x) ^ (b - 1))) by apply w_int. rewrite <- EK. unfold scal; cbn; unfold mult; cbn. field. lra.
  - intros x Hx. apply Rmult_le_pos; [apply (w_nonneg a b x Hx) | apply Rlt_le, Rinv_0_lt_compat; auto].
Qed.
Lemma phase_interval : forall B a b al be, beta_function B -> (1 <= a)%nat -> (1 <= b)%nat ->
  RInt (fun t => beta_phase B t a b) al be = / PI * RInt (fun x => beta_pdf B x a b) (cos (be / 2) ^ 2) (cos (al / 2) ^ 2).
Proof.
  intros B a b al be HB Ha Hb. unfold beta_phase, beta_pdf. rewrite (HB a b Ha Hb). assert (P : 0 < RInt (fun x => x ^ (a - 1) * (1 - x) ^ (b - 1)) 0 1) by (apply (int_pos a b 0 1); lra).
  remember (RInt (fun x => x ^ (a - 1) * (1 - x) ^ (b - 1)) 0 1) as K eqn:EK. cbn in K. pose proof PI_RGT_0. cbv zeta.
  rewrite (RInt_ext _ (fun t => scal (/ (K * PI)) ((cos (t / 2) ^ 2) ^ (a - 1) * (1 - cos (t / 2) ^ 2) ^ (b - 1) * sin (t / 2) * cos (t / 2)))) by (intros; unfold scal; cbn; unfold mult; cbn; unfold Rdiv; rewrite ?Rinv_mult; ring).
  rewrite (RInt_ext (fun x => x ^ (a - 1) * (1 - x) ^ (b - 1) / K) (fun x => scal (/ K) (x ^ (a - 1) * (1 - x) ^ (b - 1)))) by (intros; unfold scal; cbn; unfold mult; cbn; unfold Rdiv; rewrite ?Rinv_mult; ring).
  rewrite (RInt_scal (V := R_CompleteNormedModule) (fun x => x ^ (a - 1) * (1 - x) ^ (b - 1))) by apply w_int.
  rewrite (RInt_scal (V := R_CompleteNormedModule) (fun t => (cos (t / 2) ^ 2) ^ (a - 1) * (1 - cos (t / 2) ^ 2) ^ (b - 1) * sin (t / 2) * cos (t / 2))).
  - rewrite (phase_int a b al be). unfold scal; cbn; unfold mult; cbn. field. lra.
  - apply ex_RInt_continuous. intros z _. apply (ex_derive_continuous (fun t => (cos (t / 2) ^ 2) ^ (a - 1) * (1 - cos (t / 2) ^ 2) ^ (b - 1) * sin (t / 2) * cos (t / 2))). auto_derive. auto.
Qed.
Lemma phase_total : forall B a b, beta_function B -> (1 <= a)%nat -> (1 <= b)%nat -> RInt (fun t => beta_phase B t a b) 0 PI = / PI.
Proof.
  intros B a b HB Ha Hb. rewrite (phase_interval B a b 0 PI HB Ha Hb). replace (cos (PI / 2)) with 0 by (symmetry; apply cos_PI2).
  replace (0 / 2) with 0 by field. rewrite cos_0. replace (0 ^ 2) with 0 by ring. replace (1 ^ 2) with 1 by ring.
  rewrite (proj1 (pdf_total B a b HB Ha Hb)). apply Rmult_1_r.
Qed.
(** the drawn phase *)
Lemma ttp_plain : forall s, 0 <= s <= 1 -> transmissivity_to_phase s None = acos (2 * s - 1).
Proof.
  intros s H. unfold transmissivity_to_phase. f_equal. replace ((s - (1 / 2) ^ 2 - (1 / 2) ^ 2) / (2 * (1 / 2) * (1 / 2))) with (2 * s - 1) by field.
  rewrite Rmax_left by lra. apply Rmin_left. lra.
Qed.
Lemma acos_le_iff : forall x t, -1 <= x <= 1 -> 0 <= t <= PI -> (acos x <= t <-> cos t <= x).
Proof.
  intros x t Hx Ht. pose proof (acos_bound x) as A. pose proof (cos_acos x Hx) as E. split; intro H.
  - rewrite <- E. apply cos_decr_1; lra.
  - rewrite <- E in H. apply cos_decr_0 in H; lra.
Qed.
Lemma drawn_phase : forall B a b s u t, beta_function B -> (1 <= a)%nat -> (1 <= b)%nat -> 0 <= s <= 1 -> beta_cdf a b s = u -> 0 <= t <= PI ->
  (transmissivity_to_phase s None <= t <-> 1 - PI * RInt (fun t => beta_phase B t a b) 0 t <= u).
Proof.
  intros B a b s u t HB Ha Hb Hs <- Ht. rewrite ttp_plain by auto. rewrite acos_le_iff by lra.
  assert (C2 : cos t = 2 * cos (t / 2) ^ 2 - 1) by (replace t with (2 * (t / 2)) at 1 by field; rewrite cos_2a_cos; ring).
  set (x := cos (t / 2) ^ 2) in *. assert (Hx : 0 <= x <= 1).
  { unfold x. pose proof (COS_bound (t / 2)). nra. }
  assert (I : 1 - PI * RInt (fun t => beta_phase B t a b) 0 t = beta_cdf a b x).
  { rewrite (phase_interval B a b 0 t HB Ha Hb). fold x. replace (0 / 2) with 0 by field. rewrite cos_0. replace (1 ^ 2) with 1 by ring.
    pose proof PI_RGT_0. unfold beta_pdf, beta_cdf. rewrite (HB a b Ha Hb). assert (P : 0 < RInt (fun x => x ^ (a - 1) * (1 - x) ^ (b - 1)) 0 1) by (apply (int_pos a b 0 1); lra).
    assert (Q : RInt (fun x => x ^ (a - 1) * (1 - x) ^ (b - 1)) 0 x + RInt (fun x => x ^ (a - 1) * (1 - x) ^ (b - 1)) x 1 = RInt (fun x => x ^ (a - 1) * (1 - x) ^ (b - 1)) 0 1) by apply (chasles a b 0 x 1).
    remember (RInt (fun x => x ^ (a - 1) * (1 - x) ^ (b - 1)) 0 1) as K eqn:EK. cbn in K.
    rewrite (RInt_ext (fun x => x ^ (a - 1) * (1 - x) ^ (b - 1) / K) (fun x => scal (/ K) (x ^ (a - 1) * (1 - x) ^ (b - 1)))) by (intros; unfold scal; cbn; unfold mult; cbn; unfold Rdiv; rewrite ?Rinv_mult; ring).
    rewrite (RInt_scal (V := R_CompleteNormedModule) (fun x => x ^ (a - 1) * (1 - x) ^ (b - 1))) by apply w_int.
    remember (RInt (fun x => x ^ (a - 1) * (1 - x) ^ (b - 1)) x 1) as I1. remember (RInt (fun y => y ^ (a - 1) * (1 - y) ^ (b - 1)) 0 x) as I0. cbn in I0, I1.
    assert (E1 : I1 = K - I0) by lra. clear HeqI1 HeqI0 EK. subst I1. unfold scal; cbn; unfold mult; cbn. field. lra. }
  rewrite I. rewrite <- (cdf_mono a b x s Hx Hs). rewrite C2. split; lra.
Qed.
From Coq Require Import List.
From Verif Require Import Model_forward Model_rand Proof_rand.
Lemma rand_theta_law : forall B Q m u k nd t, beta_function B -> nth_error (nodes m) k = Some nd -> err_at m k = (0, 0) -> (1 <= alpha nd)%nat -> (1 <= beta nd)%nat ->
  0 <= Q (INR (beta nd)) (INR (alpha nd)) (u k) <= 1 -> beta_cdf (beta nd) (alpha nd) (Q (INR (beta nd)) (INR (alpha nd)) (u k)) = u k -> 0 <= t <= PI ->
  (rand_theta Q m u k <= t <-> 1 - PI * RInt (fun th => beta_phase B th (beta nd) (alpha nd)) 0 t <= u k).
Proof.
  intros B Q m u k nd t HB Hk He Ha Hb HQ HC Ht. unfold rand_theta, rand_s, betas, alphas. rewrite He, half_terms.
  rewrite (nth_error_nth (map beta (nodes m)) k 0%nat (x := beta nd)) by (rewrite nth_error_map, Hk; reflexivity).
  rewrite (nth_error_nth (map alpha (nodes m)) k 0%nat (x := alpha nd)) by (rewrite nth_error_map, Hk; reflexivity).
  apply (drawn_phase B (beta nd) (alpha nd) _ (u k) t); auto.
Qed.
