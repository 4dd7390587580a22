(** C168: frequency-domain solutions converge to the solutions of Maxwell's equations. *)
From Coq Require Import Reals Lra Lia List Arith.
From Verif Require Import Cx Arr Model_coupling Model_yee Spec_yee Model_fdfd Spec_fdfd Model_fdtd Spec_fdtd Model_fdfdc Spec_fdfdc Spec_conv Spec_fdfdcv Proof_fdfdcv2.
Local Open Scope R_scope.

(** Let E, H be complex amplitudes that solve Maxwell's equations with the current J and the permittivity the grid has at the samples of E, with
    third derivatives at most M, in a material that absorbs (or amplifies) everywhere by at least sigma and whose real part is at most emax.  Then
    the root mean square difference between the fields returned by an exact solver and the samples of E and H is at most
    (1 + (1 + emax)/sigma) M Dx^2 / (6 k0), Dx being the largest cell size. *)
Theorem C168_convergence_3d : forall g k0 eps E H J DE DH M Dx sigma emax solver src, wf_grid g -> 0 < k0 ->
  (forall a, is_active g a = true -> g_spacing g a <= Dx) ->
  lossy (fdfd_on g k0 eps) sigma -> 0 <= emax -> (forall i j k, in_grid (g_shape g) i j k -> re (eps i j k) <= emax) ->
  phasor_fits g E -> phasor_fits g H -> phasor_derivatives M E DE -> phasor_derivatives M H DH -> harmonic g k0 eps DE DH E H J ->
  (forall c i j k, in_grid (g_shape g) i j k -> src c i j k = at_e g J c i j k) -> exact3c (fdfd_on g k0 eps) solver src ->
  rms_gap (g_shape g) (solve3c (fdfd_on g k0 eps) solver src) (at_e g E, at_h g H) <= (1 + (1 + emax) / sigma) / (6 * k0) * (M * Dx ^ 2).
Proof. exact converge3. Qed.
Print Assumptions C168_convergence_3d.
(** The same for the 2-D solver with an out-of-plane electric field. *)
Theorem C168_convergence_te : forall g k0 eps E H J DE DH M Dx sigma emax solver src, wf_grid g -> g_shape g AZ = 1%nat -> 0 < k0 ->
  (forall a, is_active g a = true -> g_spacing g a <= Dx) ->
  lossy (fdfd_on g k0 eps) sigma -> 0 <= emax -> (forall i j k, in_grid (g_shape g) i j k -> re (eps i j k) <= emax) ->
  phasor_fits g E -> phasor_fits g H -> phasor_derivatives M E DE -> phasor_derivatives M H DH -> harmonic g k0 eps DE DH E H J ->
  (forall i j k, in_grid (g_shape g) i j k -> src i j k = at_e g J AZ i j k /\ at_e g J AX i j k = C0 /\ at_e g J AY i j k = C0) ->
  exact2c (fdfd_on g k0 eps) (mat_ez_c (fdfd_on g k0 eps)) solver src ->
  rms_gap (g_shape g) (solve2_te_c (fdfd_on g k0 eps) solver src) (at_e g E, at_h g H) <= (1 + (1 + emax) / sigma) / (6 * k0) * (M * Dx ^ 2).
Proof. exact converge_te. Qed.
Print Assumptions C168_convergence_te.
(** Non-vacuity: one period of E_z = cos(kx), H_y = - i sin(kx) on n cells of any size in a material of permittivity 4 + i; the error is at most
    (2 pi / n)^2. *)
Example C168_wave : forall n d, (1 <= n)%nat -> 0 < d -> forall solver,
  let k := one_period n d in let f := fdfd_on (row n d) k (fun _ _ _ => mkC 4 1) in let J := at_e (row n d) (wave_J k) in
  exact3c f solver J -> rms_gap (g_shape (row n d)) (solve3c f solver J) (at_e (row n d) (wave_E k), at_h (row n d) (wave_H k)) <= (2 * PI / INR n) ^ 2.
Proof. exact row_error. Qed.
