(** Vocabulary for the stability of frequency-domain solutions: norms, another permittivity, a solver that leaves a residual. *)
From Coq Require Import Reals Arith.
From Verif Require Import Cx Arr Model_coupling Model_yee Model_fdfd Spec_yee Spec_fdfd Spec_fdtd Model_fdfdc Spec_fdfdc.
Local Open Scope R_scope.
(** Euclidean norm over the cells. *)
Definition norm2 (s : shape3) (f : fld) : R := sqrt (power2 s f).
Definition vnorm2 (s : shape3) (f : vfld) : R := sqrt (vpower2 s f).
Definition fsub (f g : fld) : fld := fun i j k => (f i j k - g i j k)%C.
Definition vsub (f g : vfld) : vfld := fun c => fsub (f c) (g c).
(** The same simulation with another permittivity. *)
Definition with_eps (d : cfdfd) (eps : fld) : cfdfd := mkCfdfd (cf_shape d) (cf_dxf d) (cf_dxb d) (cf_bloch d) (cf_k0 d) eps.
(** A solver whose answer x leaves the residual res: A x = k0 src + res (iterative solvers stop at a tolerance). *)
Definition near3c (d : cfdfd) (solver : (axis -> axis -> mat) -> bvec -> bvec) (src res : vfld) : Prop := forall c r, (r < npix (cf_shape d))%nat ->
  bmatvec (npix (cf_shape d)) (mat3c d) (solver (mat3c d) (fun c r => RtoC (cf_k0 d) * ravel (cf_shape d) (src c) r)%C) c r =
  (RtoC (cf_k0 d) * ravel (cf_shape d) (src c) r + ravel (cf_shape d) (res c) r)%C.
Definition near2c (d : cfdfd) (M : mat) (solver : mat -> vec -> vec) (src res : fld) : Prop := forall r, (r < npix (cf_shape d))%nat ->
  matvec (npix (cf_shape d)) M (solver M (fun r => RtoC (cf_k0 d) * ravel (cf_shape d) src r)%C) r =
  (RtoC (cf_k0 d) * ravel (cf_shape d) src r + ravel (cf_shape d) res r)%C.
