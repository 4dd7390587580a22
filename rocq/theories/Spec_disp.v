(** Plane waves on the periodic grid and the wave vectors they have there. *)
From Coq Require Import Reals List Arith.
From Verif Require Import Cx Arr Model_yee Spec_yee Model_fdtd Spec_fdtd.
Local Open Scope R_scope.

(** Phase advance per cell along axis a of the plane wave with m a periods across the grid. *)
Definition per_cell (s : shape3) (m : axis -> nat) (a : axis) : R := 2 * PI * INR (m a) / INR (s a).
Definition plane (s : shape3) (m : axis -> nat) : fld := fun i j k =>
  cis (per_cell s m AX * INR i + per_cell s m AY * INR j + per_cell s m AZ * INR k).
(** A vector amplitude times a plane wave. *)
Definition times (A : axis -> C) (f : fld) : vfld := fun c i j k => (A c * f i j k)%C.
(** |K|^2 of the lattice: the sum over the axes of (2 sin(theta/2) / spacing)^2 (axes of one cell contribute nothing). *)
Definition lattice_k2 (g : fgrid) (m : axis -> nat) : R :=
  sum3 (fun a => (2 * sin (per_cell (g_shape g) m a / 2) / g_spacing g a) ^ 2).
(** The amplitude has no divergence on the lattice (D . k = 0). *)
Definition transverse (g : fgrid) (m : axis -> nat) (E : axis -> C) : Prop :=
  let t a := ((C1 - cis (- per_cell (g_shape g) m a)) / RtoC (g_spacing g a) * E a)%C in (t AX + t AY + t AZ)%C = C0.
(** The plane wave with phase advance th a per cell (Bloch waves included). *)
Definition bloch_wave (th : axis -> R) : fld := fun i j k => cis (th AX * INR i + th AY * INR j + th AZ * INR k).
(** th fits the boundary phases: across the whole grid the wave collects the Bloch factor. *)
Definition fits (s : shape3) (bl : axis -> C) (th : axis -> R) : Prop := forall a, cis (th a * INR (s a)) = bl a.
Definition wave_k2 (sp th : axis -> R) : R := sum3 (fun a => (2 * sin (th a / 2) / sp a) ^ 2).
Definition transverse_to (sp th : axis -> R) (E : axis -> C) : Prop :=
  let t a := ((C1 - cis (- th a)) / RtoC (sp a) * E a)%C in (t AX + t AY + t AZ)%C = C0.
From Verif Require Import Model_fdfd.
(** The same FDFD problem with every length (pixels, wavelength) multiplied by u. *)
Definition enlarged (u : R) (d : fdfd) : fdfd :=
  mkFdfd (d_shape d) (fun a n => RtoC u * d_dxf d a n)%C (fun a n => RtoC u * d_dxb d a n)%C (d_bloch d) (d_k0 d / u) (d_eps d).
