(** Vocabulary for the resonances of lossless materials (C180). *)
From Coq Require Import Reals Arith.
From Verif Require Import Cx Arr Model_coupling Model_yee Model_fdfd Spec_yee Spec_fdfd Spec_fdtd Model_fdfdc Spec_fdfdc.
Local Open Scope R_scope.
(** The same simulation at the wave number k. *)
Definition at_wave_number (d : cfdfd) (k : R) : cfdfd := mkCfdfd (cf_shape d) (cf_dxf d) (cf_dxb d) (cf_bloch d) k (cf_eps d).
(** Uniform pixels along each axis (no layers), any Bloch phases; the permittivity is real and positive in every cell. *)
Definition lossless (d : cfdfd) : Prop :=
  (exists w, cf_dxf d = uniform_dx w /\ cf_dxb d = uniform_dx w) /\
  forall i j k, in_grid (cf_shape d) i j k -> im (cf_eps d i j k) = 0 /\ 0 < re (cf_eps d i j k).
