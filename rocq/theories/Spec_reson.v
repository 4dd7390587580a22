(** Vocabulary for resonances of lossless simulations (C179). *)
From Coq Require Import Reals Arith.
From Verif Require Import Cx Arr Model_coupling Model_yee Model_fdfd Spec_yee Spec_fdfd Spec_fdtd Model_fdfdc Spec_fdfdc Spec_disp.
Local Open Scope R_scope.
(** A box with cells of size w a along axis a (no layers), Bloch phases on the boundary, filled with the permittivity eps (real or complex). *)
Definition filled_box (d : cfdfd) (w : axis -> R) (eps : C) : Prop :=
  positive_shape (cf_shape d) /\ (forall a, 0 < w a) /\ cf_dxf d = uniform_dx w /\ cf_dxb d = uniform_dx w /\ 0 < cf_k0 d /\
  (forall a, Cn2 (cf_bloch d a) = 1) /\ (forall a, cf_shape d a = 1%nat -> cf_bloch d a = C1) /\
  (forall i j k, in_grid (cf_shape d) i j k -> cf_eps d i j k = eps).
(** How far the wave number of the medium is from that of the grid wave th (in square). *)
Definition detuning (d : cfdfd) (w : axis -> R) (eps : C) (th : axis -> R) : C := (RtoC (wave_k2 w th) - RtoC (cf_k0 d * cf_k0 d) * eps)%C.
(** No wave of the grid that fits the box has the wave number of the medium. *)
Definition off_resonance (d : cfdfd) (w : axis -> R) (eps : C) : Prop := forall th, fits (cf_shape d) (cf_bloch d) th -> detuning d w eps th <> C0.
