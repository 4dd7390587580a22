(** Proofs for C168 (2): the solvers, and the instance. *)
From Coq Require Import Reals Lra Lia Arith FunctionalExtensionality.
From Verif Require Import Cx Arr Model_coupling Model_yee Spec_yee Proof_yee Proof_yee2 Model_fdfd Spec_fdfd Proof_fdfd Proof_fdfd2 Model_fdtd Spec_fdtd
  Model_fdfdc Spec_fdfdc Proof_fdfdc Proof_fdfdc2 Proof_fdfdc3 Spec_conv Proof_conv Proof_conv2 Proof_conv3 Proof_conv4 Spec_fdfdcv Proof_fdfdcv.
Local Open Scope R_scope.
Lemma M_nonneg : forall M F D, phasor_derivatives M F D -> 0 <= M.
Proof. intros M F D H. destruct (H AX (fun _ => 0) AX) as [(f2 & f3 & _ & _ & _ & B) _]. eapply Rle_trans; [apply Rabs_pos | apply (B 0)]. Qed.
Lemma converge3 : forall g k0 eps E H J DE DH M Dx sigma emax solver src, wf_grid g -> 0 < k0 ->
  (forall a, is_active g a = true -> g_spacing g a <= Dx) ->
  lossy (fdfd_on g k0 eps) sigma -> 0 <= emax -> (forall i j k, in_grid (g_shape g) i j k -> re (eps i j k) <= emax) ->
  phasor_fits g E -> phasor_fits g H -> phasor_derivatives M E DE -> phasor_derivatives M H DH -> harmonic g k0 eps DE DH E H J ->
  (forall c i j k, in_grid (g_shape g) i j k -> src c i j k = at_e g J c i j k) -> exact3c (fdfd_on g k0 eps) solver src ->
  rms_gap (g_shape g) (solve3c (fdfd_on g k0 eps) solver src) (at_e g E, at_h g H) <= (1 + (1 + emax) / sigma) / (6 * k0) * (M * Dx ^ 2).
Proof.
  intros g k0 eps E H J DE DH M Dx sigma emax solver src W Hk HD HL He HE FE FH dE dH HX Hs X.
  pose proof (maxwell3 (fdfd_on g k0 eps) solver src eq_refl ltac:(cbn; lra) X) as Q. destruct (solve3c (fdfd_on g k0 eps) solver src) as [e h]. destruct Q as [Q1 Q2].
  exact (harmonic_bound g k0 eps E H J DE DH M Dx sigma emax e h src W Hk (M_nonneg M E DE dE) HD HL He HE FE FH dE dH HX Hs Q1 Q2).
Qed.
Lemma converge_te : forall g k0 eps E H J DE DH M Dx sigma emax solver src, wf_grid g -> g_shape g AZ = 1%nat -> 0 < k0 ->
  (forall a, is_active g a = true -> g_spacing g a <= Dx) ->
  lossy (fdfd_on g k0 eps) sigma -> 0 <= emax -> (forall i j k, in_grid (g_shape g) i j k -> re (eps i j k) <= emax) ->
  phasor_fits g E -> phasor_fits g H -> phasor_derivatives M E DE -> phasor_derivatives M H DH -> harmonic g k0 eps DE DH E H J ->
  (forall i j k, in_grid (g_shape g) i j k -> src i j k = at_e g J AZ i j k /\ at_e g J AX i j k = C0 /\ at_e g J AY i j k = C0) ->
  exact2c (fdfd_on g k0 eps) (mat_ez_c (fdfd_on g k0 eps)) solver src ->
  rms_gap (g_shape g) (solve2_te_c (fdfd_on g k0 eps) solver src) (at_e g E, at_h g H) <= (1 + (1 + emax) / sigma) / (6 * k0) * (M * Dx ^ 2).
Proof.
  intros g k0 eps E H J DE DH M Dx sigma emax solver src W Hz Hk HD HL He HE FE FH dE dH HX Hs X.
  pose proof (maxwell_te (fdfd_on g k0 eps) solver src eq_refl ltac:(cbn; lra) Hz X) as Q. destruct (solve2_te_c (fdfd_on g k0 eps) solver src) as [e h]. destruct Q as [Q1 Q2].
  refine (harmonic_bound g k0 eps E H J DE DH M Dx sigma emax e h (only_z src) W Hk (M_nonneg M E DE dE) HD HL He HE FE FH dE dH HX _ Q1 Q2).
  intros c i j k Hg. destruct (Hs i j k Hg) as (A & B & C). unfold only_z. destruct c; auto.
Qed.
(** The instance. *)
Section Ex.
Variables (n : nat) (d : R).
Hypothesis Hn : (1 <= n)%nat.
Hypothesis Hd : 0 < d.
Let k := one_period n d.
Definition wave_DE (k : R) : axis -> axis -> phasor := fun c a p => match c, a with AZ, AX => mkC (- k * sin (k * p AX)) 0 | _, _ => C0 end.
Definition wave_DH (k : R) : axis -> axis -> phasor := fun c a p => match c, a with AY, AX => mkC 0 (- k * cos (k * p AX)) | _, _ => C0 end.
Lemma nd_p : 0 < INR n * d.
Proof. apply Rmult_lt_0_compat; [apply lt_0_INR; lia | exact Hd]. Qed.
Lemma k_pos : 0 < k.
Proof. pose proof nd_p. pose proof PI_RGT_0. unfold k, one_period. apply Rdiv_lt_0_compat; lra. Qed.
Lemma row_wf : wf_grid (row n d).
Proof. split; [cbn; lia |]. split; [intro a; destruct a; cbn; lia |]. split; intros a Ha; [exact Hd |]. destruct a; [discriminate | reflexivity | reflexivity]. Qed.
Lemma shift_k : forall x, k * (x + INR n * d) = k * x + 2 * INR 1 * PI.
Proof. intro x. unfold k, one_period. pose proof nd_p. cbn [INR]. assert (INR n <> 0) by (apply not_0_INR; lia). field. split; lra. Qed.
Lemma act_row : forall a, is_active (row n d) a = true -> a = AX.
Proof. intros a Ha. destruct a; [reflexivity | discriminate | discriminate]. Qed.
Lemma row_fits_E : phasor_fits (row n d) (wave_E k).
Proof.
  intros c p a. split; intro Ha.
  - apply act_row in Ha. subst a. destruct c; [reflexivity | reflexivity |]. unfold wave_E, move. cbn [same_axis row g_shape g_spacing]. rewrite shift_k, cos_period. reflexivity.
  - intro x. destruct a; [discriminate | |]; destruct c; reflexivity.
Qed.
Lemma row_fits_H : phasor_fits (row n d) (wave_H k).
Proof.
  intros c p a. split; intro Ha.
  - apply act_row in Ha. subst a. destruct c; [reflexivity | | reflexivity]. unfold wave_H, move. cbn [same_axis row g_shape g_spacing]. rewrite shift_k, sin_period. reflexivity.
  - intro x. destruct a; [discriminate | |]; destruct c; reflexivity.
Qed.
Lemma k3 : 0 < k * k * k.
Proof. pose proof k_pos. apply Rmult_lt_0_compat; [apply Rmult_lt_0_compat |]; assumption. Qed.
Lemma flat : forall f f1, (forall x, f x = f 0) -> (forall x, f1 x = 0) -> three_times (k * k * k) f f1.
Proof.
  intros f f1 H0 H1. apply (cos_three (f 0) 0 0); [| intro x; rewrite Rmult_0_l, Rplus_0_r, cos_0, Rmult_1_r; apply H0 | intro x; rewrite H1; ring].
  replace (f 0 * (0 * 0 * 0)) with 0 by ring. rewrite Rabs_R0. pose proof k3. lra.
Qed.
Lemma row_der_E : phasor_derivatives (k * k * k) (wave_E k) (wave_DE k).
Proof.
  pose proof k3 as K3. intros c p a. destruct c; [split; apply flat; intros; reflexivity | split; apply flat; intros; reflexivity |].
  destruct a; [| split; apply flat; intros; reflexivity | split; apply flat; intros; reflexivity].
  split; [| apply flat; intros; reflexivity].
  apply (cos_three 1 k 0); [rewrite Rabs_pos_eq; lra | |]; intro x; unfold wave_E, wave_DE, move; cbn [same_axis re]; rewrite Rplus_0_r; ring.
Qed.
Lemma row_der_H : phasor_derivatives (k * k * k) (wave_H k) (wave_DH k).
Proof.
  pose proof k3 as K3. intros c p a. destruct c; [split; apply flat; intros; reflexivity | | split; apply flat; intros; reflexivity].
  destruct a; [| split; apply flat; intros; reflexivity | split; apply flat; intros; reflexivity].
  split; [apply flat; intros; reflexivity |].
  apply (cos_three 1 k (PI / 2)); [rewrite Rabs_pos_eq; lra | |]; intro x; unfold wave_H, wave_DH, move; cbn [same_axis im]; rewrite (Rplus_comm (k * x) (PI / 2)).
  - rewrite (sin_cos (k * x)). ring.
  - rewrite <- cos_sin. ring.
Qed.
Lemma row_harmonic : harmonic (row n d) k (fun _ _ _ => mkC 4 1) (wave_DE k) (wave_DH k) (wave_E k) (wave_H k) (wave_J k).
Proof.
  intros c i j m Hg. assert (Ev : eps_at (g_shape (row n d)) (fun _ _ _ => mkC 4 1) c i j m = mkC 4 1) by (unfold eps_at; destruct c; apply C_eq; unfold Cdiv, Cinv, Cn2; cbn [re im RtoC Cmul Cadd]; field).
  rewrite Ev. split; destruct c; unfold curl_at, wave_DE, wave_DH, wave_E, wave_H, wave_J; apply C_eq; cbn [re im RtoC Cmul Cadd Csub Copp Ci C0]; ring.
Qed.
Lemma row_lossy : lossy (fdfd_on (row n d) k (fun _ _ _ => mkC 4 1)) 1.
Proof. split; [lra |]. left. intros. cbn. lra. Qed.
Lemma row_error : forall solver, let f := fdfd_on (row n d) k (fun _ _ _ => mkC 4 1) in let J := at_e (row n d) (wave_J k) in
  exact3c f solver J -> rms_gap (g_shape (row n d)) (solve3c f solver J) (at_e (row n d) (wave_E k), at_h (row n d) (wave_H k)) <= (2 * PI / INR n) ^ 2.
Proof.
  intros solver f J X. pose proof k_pos as Kp.
  pose proof (converge3 (row n d) k (fun _ _ _ => mkC 4 1) (wave_E k) (wave_H k) (wave_J k) (wave_DE k) (wave_DH k) (k * k * k) d 1 4 solver J row_wf Kp (fun a _ => Rle_refl d) row_lossy ltac:(lra)
    ltac:(intros; cbn; lra) row_fits_E row_fits_H row_der_E row_der_H row_harmonic (fun _ _ _ _ _ => eq_refl) X) as B.
  replace ((1 + (1 + 4) / 1) / (6 * k) * (k * k * k * d ^ 2)) with ((k * d) ^ 2) in B by (field; lra).
  replace (k * d) with (2 * PI / INR n) in B; [exact B |]. unfold k, one_period. pose proof nd_p. assert (INR n <> 0) by (apply not_0_INR; lia). field. split; lra.
Qed.
End Ex.
