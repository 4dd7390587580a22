(** Vocabulary for the adjoint method: how much a measured overlap reacts to the permittivity of each cell. *)
From Coq Require Import Reals Arith.
From Verif Require Import Cx Arr Model_coupling Model_yee Model_fdfd Spec_yee Spec_fdfd Model_fdfdc Spec_fdfdc.
Local Open Scope R_scope.
(** The cell (i, j, k) contributes half to the permittivity of two E_x and two E_y edges and a quarter to four E_z edges; p: product of forward and adjoint field. *)
Definition sens_z (s : shape3) (p : fld) : fld := fun i j k => let i1 := succ_p (s AX) i in let j1 := succ_p (s AY) j in
  ((p i j k + p i1 j k + p i j1 k + p i1 j1 k) / RtoC 4)%C.
Definition sens_v (s : shape3) (p : vfld) : fld := fun i j k => let i1 := succ_p (s AX) i in let j1 := succ_p (s AY) j in
  ((p AX i j k + p AX i j1 k) / RtoC 2 + (p AY i j k + p AY i1 j k) / RtoC 2 + sens_z s (p AZ) i j k)%C.
Definition fmul (f g : fld) : fld := fun i j k => (f i j k * g i j k)%C.
Definition vmul (f g : vfld) : vfld := fun c => fmul (f c) (g c).
