(** Vocabulary for TM simulations: the electric field behind a magnetic field h = h_z. *)
From Coq Require Import Reals Arith.
From Verif Require Import Cx Arr Model_coupling Model_yee Model_fdfd Spec_yee Spec_fdfd Model_fdfdc Spec_fdfdc.
Local Open Scope R_scope.
(** Slopes of h over the permittivity of the edge they belong to; i k0 times the electric field, up to sign. *)
Definition flux (d : cfdfd) (h : fld) : vfld := fun c i j k => match c with
  | AX => (dplus d h AY i j k / eps_at (cf_shape d) (cf_eps d) AX i j k)%C
  | AY => (dplus d h AX i j k / eps_at (cf_shape d) (cf_eps d) AY i j k)%C
  | AZ => C0
  end.
(** The real part of the permittivity is at most kappa times its imaginary part, in size. *)
Definition sloped (d : cfdfd) (kappa : R) : Prop := forall i j k, in_grid (cf_shape d) i j k -> Rabs (re (cf_eps d i j k)) <= kappa * Rabs (im (cf_eps d i j k)).
