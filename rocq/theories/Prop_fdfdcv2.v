(** C178: TM simulations converge to the solutions of Maxwell's equations. *)
From Coq Require Import Reals Lra Lia List Arith.
From Verif Require Import Cx Arr Model_coupling Model_yee Spec_yee Model_fdfd Spec_fdfd Model_fdtd Spec_fdtd Model_fdfdc Spec_fdfdc Spec_conv Spec_fdfdcv Spec_fdfdtm Spec_fdfdcv2 Proof_fdfdcv3.
Local Open Scope R_scope.

(** Let E, H solve Maxwell's equations with an out-of-plane magnetic field and magnetic current K, with third derivatives at most M, |E| at most
    emax, in a material that absorbs (or amplifies) by at least sigma, with |Re eps| <= kappa |Im eps| and a permittivity that differs by at most
    dl between neighbouring cells.  Then h_z differs from the samples of H_z in root mean square by at most
    (sqrt(c/sigma) + c) M Dx^2 / (6 k0) + 2 sqrt(c/sigma) dl emax, c = sqrt(1 + kappa^2): the second term is there because `mat_hz` takes the
    permittivity of the edge on the wrong side of the cell (C166). *)
Theorem C178_convergence_tm : forall g k0 eps E H K DE DH M Dx sigma kappa dl emax solver src, wf_grid g -> g_shape g AZ = 1%nat -> 0 < k0 ->
  (forall a, is_active g a = true -> g_spacing g a <= Dx) ->
  lossy (fdfd_on g k0 eps) sigma -> sloped (fdfd_on g k0 eps) kappa -> varies g eps dl ->
  (forall c i j k, in_grid (g_shape g) i j k -> Cabs (at_e g E c i j k) <= emax) ->
  phasor_fits g E -> phasor_fits g H -> phasor_derivatives M E DE -> phasor_derivatives M H DH -> harmonic_tm g k0 eps DE DH E H K ->
  (forall i j k, in_grid (g_shape g) i j k -> src i j k = K (h_place g AZ i j k)) ->
  exact2c (fdfd_on g k0 eps) (mat_hz_c (fdfd_on g k0 eps)) solver src ->
  rms_diff (g_shape g) (snd (solve2_tm_c (fdfd_on g k0 eps) solver src) AZ) (at_h g H AZ) <=
  (sqrt (sqrt (1 + kappa * kappa) / sigma) + sqrt (1 + kappa * kappa)) / (6 * k0) * (M * Dx ^ 2) + 2 * sqrt (sqrt (1 + kappa * kappa) / sigma) * dl * emax.
Proof. exact converge_tm. Qed.
Print Assumptions C178_convergence_tm.
(** The electric field returned converges to the opposite of the electric field: its sign is wrong (C59). *)
Theorem C178_electric_tm_partial : forall g k0 eps E H K DE DH M Dx sigma kappa dl emax amax solver src, wf_grid g -> g_shape g AZ = 1%nat -> 0 < k0 ->
  (forall a, is_active g a = true -> g_spacing g a <= Dx) ->
  lossy (fdfd_on g k0 eps) sigma -> sloped (fdfd_on g k0 eps) kappa -> varies g eps dl -> (forall i j k, in_grid (g_shape g) i j k -> Cabs (eps i j k) <= amax) ->
  (forall c i j k, in_grid (g_shape g) i j k -> Cabs (at_e g E c i j k) <= emax) ->
  phasor_fits g E -> phasor_fits g H -> phasor_derivatives M E DE -> phasor_derivatives M H DH -> harmonic_tm g k0 eps DE DH E H K ->
  (forall i j k, in_grid (g_shape g) i j k -> src i j k = K (h_place g AZ i j k)) ->
  exact2c (fdfd_on g k0 eps) (mat_hz_c (fdfd_on g k0 eps)) solver src -> let e := fst (solve2_tm_c (fdfd_on g k0 eps) solver src) in
  rms_plane (g_shape g) (fun c i j k => - e c i j k)%C (at_e g E) <=
  (2 + amax / sigma + amax * sqrt (sqrt (1 + kappa * kappa) / sigma)) / (6 * k0 * sigma) * (M * Dx ^ 2) + (1 + amax / sigma) / sigma * dl * emax.
Proof. exact electric_tm. Qed.
Print Assumptions C178_electric_tm_partial.
(** On every grid with at least 40 cells per wave, however fine, the electric field of H_z = (4 + i) cos(kx) is wrong by at least its own size
    (its root mean square is 1/2); a solver exists. *)
Theorem C178_electric_tm_refuted : forall n d, (40 <= n)%nat -> 0 < d ->
  let k := one_period n d in let f := fdfd_on (row n d) k (fun _ _ _ => mkC 4 1) in let K := fun i j m => tm_wave_K k (h_place (row n d) AZ i j m) in
  (exists solver, exact2c f (mat_hz_c f) solver K) /\
  forall solver, exact2c f (mat_hz_c f) solver K -> 1 / 2 <= rms_plane (g_shape (row n d)) (fst (solve2_tm_c f solver K)) (at_e (row n d) (tm_wave_E k)).
Proof. intros n d Hn Hd k f K. split; [apply tm_row_solvable; [lia | exact Hd] | intros solver X; apply (tm_row_electric n d ltac:(lia) Hd Hn solver X)]. Qed.
Print Assumptions C178_electric_tm_refuted.
(** Non-vacuity: the same wave on n cells of any size; h_z is within 5 (2 pi / n)^2. *)
Example C178_wave : forall n d, (1 <= n)%nat -> 0 < d -> forall solver,
  let k := one_period n d in let f := fdfd_on (row n d) k (fun _ _ _ => mkC 4 1) in let K := fun i j m => tm_wave_K k (h_place (row n d) AZ i j m) in
  exact2c f (mat_hz_c f) solver K -> rms_diff (g_shape (row n d)) (snd (solve2_tm_c f solver K) AZ) (at_h (row n d) (tm_wave_H k) AZ) <= 5 * (2 * PI / INR n) ^ 2.
Proof. exact tm_row_error. Qed.
