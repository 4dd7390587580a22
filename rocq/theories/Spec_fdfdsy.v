(** Vocabulary for the symmetries of frequency-domain solutions. *)
From Coq Require Import Reals Arith.
From Verif Require Import Cx Arr Model_coupling Model_yee Model_fdfd Spec_yee Spec_fdfd Spec_fdtd Model_fdfdc Spec_fdfdc Spec_fdfdst Model_fdtd Spec_sym.
Local Open Scope R_scope.
Definition same_v (s : shape3) (u v : vfld) : Prop := forall c, same_on s (u c) (v c).
(** The structure moved by m cells along a (periodically), and its mirror image along a. *)
Definition moved_cf (a : axis) (m : nat) (d : cfdfd) : cfdfd := with_eps d (moved (cf_shape d) a m (cf_eps d)).
Definition mirror_cf (a : axis) (d : cfdfd) : cfdfd := with_eps d (through a (centre_image (cf_shape d a)) (cf_eps d)).
(** The same simulation in a unit of length u times smaller: pixels u times larger numbers, wavenumber u times smaller. *)
Definition in_unit (u : R) (d : cfdfd) : cfdfd :=
  mkCfdfd (cf_shape d) (fun a m => RtoC u * cf_dxf d a m)%C (fun a m => RtoC u * cf_dxb d a m)%C (cf_bloch d) (cf_k0 d / u) (cf_eps d).
Definition times (u : R) (f : vfld) : vfld := fun c i j k => (RtoC u * f c i j k)%C.
(** The permittivity is the same in all layers. *)
Definition z_uniform (d : cfdfd) : Prop := forall i j k k', in_grid (cf_shape d) i j k -> in_grid (cf_shape d) i j k' -> cf_eps d i j k = cf_eps d i j k'.
