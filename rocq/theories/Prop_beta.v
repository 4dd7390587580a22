(** C147: the distribution of random splits and phases (utils.py:304-311, forward.py:114-130). *)
From Coq Require Import Reals Lra Lia List.
From Coquelicot Require Import Coquelicot.
From Verif Require Import Cx Model_coupling Model_forward Model_rand Model_beta Spec_beta Proof_beta.
Local Open Scope R_scope.

(** beta_pdf is a probability density on [0, 1]. *)
Theorem C147_pdf : forall B a b, beta_function B -> (1 <= a)%nat -> (1 <= b)%nat ->
  RInt (fun x => beta_pdf B x a b) 0 1 = 1 /\ forall x, 0 <= x <= 1 -> 0 <= beta_pdf B x a b.
Proof. exact pdf_total. Qed.
Print Assumptions C147_pdf.
(** beta_phase is the density of the phase whose split is beta distributed, except for a factor 1 / pi. *)
Theorem C147_phase_partial : forall B a b t1 t2, beta_function B -> (1 <= a)%nat -> (1 <= b)%nat ->
  RInt (fun t => beta_phase B t a b) t1 t2 = / PI * RInt (fun x => beta_pdf B x a b) (cos (t2 / 2) ^ 2) (cos (t1 / 2) ^ 2).
Proof. exact phase_interval. Qed.
Print Assumptions C147_phase_partial.
(** So it is not a probability density: it integrates to 1 / pi. *)
Theorem C147_density_refuted : forall B a b, beta_function B -> (1 <= a)%nat -> (1 <= b)%nat ->
  RInt (fun t => beta_phase B t a b) 0 PI = / PI /\ / PI <> 1.
Proof.
  intros B a b HB Ha Hb. split; [exact (phase_total B a b HB Ha Hb) |]. pose proof PI2_3_2 as H. assert (1 < PI) by lra.
  pose proof (Rinv_lt_contravar 1 PI) as K. rewrite Rinv_1 in K. specialize (K ltac:(lra) ltac:(lra)). lra.
Qed.
Print Assumptions C147_density_refuted.
(** The k-th random phase of a mesh (whose node has no splitter error) is below t exactly when the k-th uniform number is in the top
    pi * integral of beta_phase(., beta, alpha): the phase has density pi * beta_phase(., beta, alpha). *)
Theorem C147_rand_theta : forall B Q m u k nd t, beta_function B -> nth_error (nodes m) k = Some nd -> err_at m k = (0, 0) -> (1 <= alpha nd)%nat -> (1 <= beta nd)%nat ->
  0 <= Q (INR (beta nd)) (INR (alpha nd)) (u k) <= 1 -> beta_cdf (beta nd) (alpha nd) (Q (INR (beta nd)) (INR (alpha nd)) (u k)) = u k -> 0 <= t <= PI ->
  (rand_theta Q m u k <= t <-> 1 - PI * RInt (fun th => beta_phase B th (beta nd) (alpha nd)) 0 t <= u k).
Proof. exact rand_theta_law. Qed.
Print Assumptions C147_rand_theta.
(** Non-vacuity: for alpha = beta = 1 the inverse distribution function is the identity. *)
Example C147_uniform : (exists B, beta_function B) /\ forall x, beta_cdf 1 1 x = x.
Proof.
  split; [exists (fun a b => RInt (fun x => x ^ (a - 1) * (1 - x) ^ (b - 1)) 0 1); intros ? ? ? ?; reflexivity |].
  intro x. unfold beta_cdf.
  assert (H : forall y, RInt (fun z => z ^ (1 - 1) * (1 - z) ^ (1 - 1)) 0 y = y).
  { intro y. rewrite (RInt_ext _ (fun _ => 1)) by (intros; cbn; ring). rewrite RInt_const. unfold scal; cbn; unfold mult; cbn. ring. }
  rewrite !H. field.
Qed.
