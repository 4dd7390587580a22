(** Vocabulary for absorbing materials in the frequency domain: the permittivity seen by a field component, the wave equations on a
    Bloch-periodic Yee grid, energies, and materials that absorb (or amplify) everywhere. *)
From Coq Require Import Reals Arith.
From Verif Require Import Cx Arr Model_coupling Model_yee Model_fdfd Spec_yee Spec_fdfd Spec_fdtd Model_fdfdc.
Local Open Scope R_scope.

(** Mean of the permittivity over the cells a component touches: E_x and E_y lie between two cells, E_z between four. *)
Definition eps_at (s : shape3) (eps : fld) (c : axis) : fld := fun i j k =>
  let i' := pred_p (s AX) i in let j' := pred_p (s AY) j in
  match c with
  | AX => ((eps i j k + eps i j' k) / RtoC 2)%C
  | AY => ((eps i j k + eps i' j k) / RtoC 2)%C
  | AZ => ((eps i j k + eps i' j k + eps i j' k + eps i' j' k) / RtoC 4)%C
  end.
Section Eqs.
Variable d : cfdfd.
Let s := cf_shape d.
(** Difference quotients across the Bloch-periodic boundary. *)
Definition dplus (f : fld) (a : axis) : fld := fwd_quot s (cf_dxf d) (cf_bloch d) a f.
Definition dminus (f : fld) (a : axis) : fld := bwd_quot s (cf_dxb d) (cf_bloch d) a f.
(** curl curl e = k0^2 eps e + k0 j at every cell. *)
Definition wave3 (src e : vfld) : Prop := forall c i j k, in_grid s i j k ->
  curl_of dminus (curl_of dplus e) c i j k = (RtoC (cf_k0 d * cf_k0 d) * eps_at s (cf_eps d) c i j k * e c i j k + RtoC (cf_k0 d) * src c i j k)%C.
(** The same for a field with only a z component that does not depend on z, and its TM counterpart: - div ((1/eps) grad h) = k0^2 h + k0 j. *)
Definition wave_te (src e : fld) : Prop := forall i j k, in_grid s i j k ->
  (- dminus (dplus e AX) AX i j k - dminus (dplus e AY) AY i j k)%C =
  (RtoC (cf_k0 d * cf_k0 d) * eps_at s (cf_eps d) AZ i j k * e i j k + RtoC (cf_k0 d) * src i j k)%C.
Definition wave_tm (src h : fld) : Prop := forall i j k, in_grid s i j k ->
  (- dminus (fun i j k => dplus h AX i j k / eps_at s (cf_eps d) AY i j k) AX i j k
   - dminus (fun i j k => dplus h AY i j k / eps_at s (cf_eps d) AX i j k) AY i j k)%C =
  (RtoC (cf_k0 d * cf_k0 d) * h i j k + RtoC (cf_k0 d) * src i j k)%C.
(** Ampere's law, complex permittivity: curl h = - i k0 eps e - i j. *)
Definition ampere_c (e h src : vfld) : Prop := forall c i j k, in_grid s i j k ->
  curl_of (bwd s (cf_dxb d)) h c i j k = (- (Ci * RtoC (cf_k0 d) * eps_at s (cf_eps d) c i j k * e c i j k) - Ci * src c i j k)%C.
(** What is assumed of the linear solver: it returned a solution of the system it was given. *)
Definition exact3c (solver : (axis -> axis -> mat) -> bvec -> bvec) (src : vfld) : Prop := forall c r, (r < npix s)%nat ->
  bmatvec (npix s) (mat3c d) (solver (mat3c d) (fun c r => RtoC (cf_k0 d) * ravel s (src c) r)%C) c r = (RtoC (cf_k0 d) * ravel s (src c) r)%C.
Definition exact2c (M : mat) (solver : mat -> vec -> vec) (src : fld) : Prop := forall r, (r < npix s)%nat ->
  matvec (npix s) M (solver M (fun r => RtoC (cf_k0 d) * ravel s src r)%C) r = (RtoC (cf_k0 d) * ravel s src r)%C.
(** Uniform pixels (no PML), positive frequency. *)
Definition plain_grid : Prop := (exists h, cf_dxf d = uniform_dx h /\ cf_dxb d = uniform_dx h) /\ 0 < cf_k0 d.
(** Every cell absorbs, or every cell amplifies, by at least sigma. *)
Definition lossy (sigma : R) : Prop := 0 < sigma /\
  ((forall i j k, in_grid s i j k -> sigma <= im (cf_eps d i j k)) \/ (forall i j k, in_grid s i j k -> im (cf_eps d i j k) <= - sigma)).
End Eqs.
(** sum of |f|^2 over the cells. *)
Definition power2 (s : shape3) (f : fld) : R := rgrid_sum s (fun i j k => Cn2 (f i j k)).
Definition vpower2 (s : shape3) (f : vfld) : R := sum3 (fun c => power2 s (f c)).
Definition same_on (s : shape3) (f g : fld) : Prop := forall i j k, in_grid s i j k -> f i j k = g i j k.
(** The instance used below: two cells along x, permittivity eps. *)
Definition two_lossy (eps : C) (k0 : R) : cfdfd :=
  mkCfdfd (fun a => match a with AX => 2 | _ => 1 end%nat) (uniform_dx (fun _ => 1)) (uniform_dx (fun _ => 1)) (fun _ => C1) k0 (fun _ _ _ => eps).
