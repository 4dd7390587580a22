(** Vocabulary for the convergence of TM simulations (C178). *)
From Coq Require Import Reals Arith.
From Verif Require Import Cx Arr Model_coupling Model_yee Model_fdfd Spec_yee Spec_fdfd Model_fdtd Spec_fdtd Model_fdfdc Spec_fdfdc Spec_conv Spec_fdfdcv.
Local Open Scope R_scope.
(** Maxwell's equations at the samples with an out-of-plane magnetic field and current: curl E = i k0 H + i K along z, curl H = - i k0 eps E
    along x and y, eps being the permittivity the grid has at the sample of E. *)
Definition harmonic_tm (g : fgrid) (k0 : R) (eps : fld) (DE DH : axis -> axis -> phasor) (E H : axis -> phasor) (K : phasor) : Prop :=
  forall i j k, in_grid (g_shape g) i j k ->
    curl_at DE AZ (h_place g AZ i j k) = (Ci * RtoC k0 * H AZ (h_place g AZ i j k) + Ci * K (h_place g AZ i j k))%C /\
    forall c, c <> AZ -> curl_at DH c (e_place g c i j k) = (- (Ci * RtoC k0 * eps_at (g_shape g) eps c i j k * E c (e_place g c i j k)))%C.
(** The permittivity of neighbouring cells, along x or y and around the boundary, differs by at most dl. *)
Definition varies (g : fgrid) (eps : fld) (dl : R) : Prop := forall i j k, in_grid (g_shape g) i j k ->
  Cabs (eps (succ_p (g_shape g AX) i) j k - eps i j k)%C <= dl /\ Cabs (eps i (succ_p (g_shape g AY) j) k - eps i j k)%C <= dl.
(** Root mean square of the difference of two scalar fields over the cells. *)
Definition rms_diff (s : shape3) (f g : fld) : R := sqrt (power2 s (fun i j k => f i j k - g i j k)%C / INR (s AX * s AY * s AZ)).
(** Instance: H_z = (4 + i) cos(kx), E_y = i sin(kx) in a material of permittivity 4 + i, driven by K = - (3 + i) k cos(kx), k = k0. *)
Definition tm_wave_E (k : R) : axis -> phasor := fun c p => match c with AY => mkC 0 (sin (k * p AX)) | _ => C0 end.
Definition tm_wave_H (k : R) : axis -> phasor := fun c p => match c with AZ => (mkC 4 1 * RtoC (cos (k * p AX)))%C | _ => C0 end.
Definition tm_wave_K (k : R) : phasor := fun p => (mkC (-3) (-1) * RtoC (k * cos (k * p AX)))%C.
(** Root mean square of the differences of the x and y components of two vector fields. *)
Definition rms_plane (s : shape3) (u v : vfld) : R :=
  let sq c := power2 s (fun i j k => u c i j k - v c i j k)%C in sqrt ((sq AX + sq AY) / (2 * INR (s AX * s AY * s AZ))).
