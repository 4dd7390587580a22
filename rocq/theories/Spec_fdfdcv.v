(** Smooth time-harmonic fields and their samples on the Yee grid (C168). *)
From Coq Require Import Reals Arith.
From Verif Require Import Cx Arr Model_coupling Model_yee Model_fdfd Spec_yee Spec_fdfd Model_fdtd Spec_fdtd Model_fdfdc Spec_fdfdc Spec_conv.
Local Open Scope R_scope.
(** A complex field in space: one amplitude per place and component. *)
Definition phasor := place -> C.
(** D c a is the derivative of component c along axis a; third derivatives of real and imaginary parts are at most M. *)
Definition phasor_derivatives (M : R) (F : axis -> phasor) (D : axis -> axis -> phasor) : Prop := forall c p a,
  three_times M (fun x => re (F c (move p a x))) (fun x => re (D c a (move p a x))) /\
  three_times M (fun x => im (F c (move p a x))) (fun x => im (D c a (move p a x))).
Definition curl_at (D : axis -> axis -> phasor) (c : axis) (p : place) : C :=
  match c with
  | AX => (D AZ AY p - D AY AZ p)%C
  | AY => (D AX AZ p - D AZ AX p)%C
  | AZ => (D AY AX p - D AX AY p)%C
  end.
(** The fields repeat after the length of the grid and do not depend on the coordinates beyond its dimension. *)
Definition phasor_fits (g : fgrid) (F : axis -> phasor) : Prop := forall c p a,
  (is_active g a = true -> F c (move p a (p a + INR (g_shape g a) * g_spacing g a)) = F c p) /\
  (is_active g a = false -> forall x, F c (move p a x) = F c p).
(** The frequency-domain simulation on the cells of a grid (no layers, periodic), wavenumber k0 and complex permittivity eps. *)
Definition fdfd_on (g : fgrid) (k0 : R) (eps : fld) : cfdfd :=
  mkCfdfd (g_shape g) (uniform_dx (width g)) (uniform_dx (width g)) (fun _ => C1) k0 eps.
(** Maxwell's equations at the samples: curl E = i k0 H, curl H = - i k0 eps E - i J, eps being the permittivity the grid has at the sample of E. *)
Definition harmonic (g : fgrid) (k0 : R) (eps : fld) (DE DH : axis -> axis -> phasor) (E H J : axis -> phasor) : Prop :=
  forall c i j k, in_grid (g_shape g) i j k ->
    curl_at DE c (h_place g c i j k) = (Ci * RtoC k0 * H c (h_place g c i j k))%C /\
    curl_at DH c (e_place g c i j k) = (- (Ci * RtoC k0 * eps_at (g_shape g) eps c i j k * E c (e_place g c i j k)) - Ci * J c (e_place g c i j k))%C.
Definition at_e (g : fgrid) (F : axis -> phasor) : vfld := fun c i j k => F c (e_place g c i j k).
Definition at_h (g : fgrid) (F : axis -> phasor) : vfld := fun c i j k => F c (h_place g c i j k).
(** Root mean square, over cells and components, of the differences of two pairs of fields. *)
Definition rms_gap (s : shape3) (f g : vfld * vfld) : R :=
  let sq u v := vpower2 s (fun c i j k => u c i j k - v c i j k)%C in
  sqrt ((sq (fst f) (fst g) + sq (snd f) (snd g)) / (3 * INR (s AX * s AY * s AZ))).
(** Instance: n cells of size d along x, permittivity 4 + i, one period of E_z = cos(kx), H_y = - i sin(kx) with k = k0 = 2 pi / (n d), driven by
    the current J_z = - (3 + i) k cos(kx). *)
Definition row (n : nat) (d : R) : fgrid := mkGrid (fun a => match a with AX => n | _ => 1%nat end) 1 (fun _ => d) (fun _ _ _ => 1).
Definition one_period (n : nat) (d : R) : R := 2 * PI / (INR n * d).
Definition wave_E (k : R) : axis -> phasor := fun c p => match c with AZ => mkC (cos (k * p AX)) 0 | _ => C0 end.
Definition wave_H (k : R) : axis -> phasor := fun c p => match c with AY => mkC 0 (- sin (k * p AX)) | _ => C0 end.
Definition wave_J (k : R) : axis -> phasor := fun c p => match c with AZ => (mkC (-3) (-1) * RtoC (k * cos (k * p AX)))%C | _ => C0 end.
