(** Vocabulary for the frequency-domain properties: Maxwell's equations on the Yee grid written with plain differences
    between neighbouring cells, the bilinear and the Hermitian pairing of fields, and where a PML factor may differ from 1. *)
From Coq Require Import Reals Arith Bool.
From Verif Require Import Cx Arr Model_coupling Model_yee Spec_yee Model_fdfd.
Local Open Scope R_scope.

(** Periodic neighbours of cell m out of n. *)
Definition succ_p (n m : nat) : nat := if Nat.eqb (m + 1) n then 0%nat else (m + 1)%nat.
Definition pred_p (n m : nat) : nat := match m with O => (n - 1)%nat | S m' => m' end.
Definition at_coord (a : axis) (f : fld) (i j k m : nat) : C := match a with AX => f m j k | AY => f i m k | AZ => f i j m end.
(** (f(next) - f) / width and (f - f(previous)) / width along axis a. *)
Definition fwd (s : shape3) (dx : pixel) (f : fld) (a : axis) : fld := fun i j k =>
  let m := coord a i j k in ((at_coord a f i j k (succ_p (s a) m) - f i j k) / dx a m)%C.
Definition bwd (s : shape3) (dx : pixel) (f : fld) (a : axis) : fld := fun i j k =>
  let m := coord a i j k in ((f i j k - at_coord a f i j k (pred_p (s a) m)) / dx a m)%C.
(** The curl for a given partial derivative. *)
Definition curl_of (D : fld -> axis -> fld) (v : vfld) : vfld := fun c i j k =>
  match c with
  | AX => (D (v AZ) AY i j k - D (v AY) AZ i j k)%C
  | AY => (D (v AX) AZ i j k - D (v AZ) AX i j k)%C
  | AZ => (D (v AY) AX i j k - D (v AX) AY i j k)%C
  end.
(** Maxwell's curl equations at angular frequency k0 (c = 1, e^{-i k0 t}), current density i j:
    curl e = i k0 h,   curl h = - i k0 eps e - i j,   at every cell. *)
Definition faraday (s : shape3) (dxf : pixel) (k0 : R) (e h : vfld) : Prop := forall c i j k, in_grid s i j k ->
  curl_of (fwd s dxf) e c i j k = (Ci * RtoC k0 * h c i j k)%C.
Definition ampere (s : shape3) (dxb : pixel) (k0 : R) (eps : axis -> rfld) (e h src : vfld) : Prop := forall c i j k, in_grid s i j k ->
  curl_of (bwd s dxb) h c i j k = (- (Ci * RtoC k0 * RtoC (eps c i j k) * e c i j k) - Ci * src c i j k)%C.
(** sum over components and cells of f g (no conjugation). *)
Definition pair (s : shape3) (f g : fld) : C := grid_sum s (fun i j k => f i j k * g i j k)%C.
Definition vpair (s : shape3) (f g : vfld) : C := (pair s (f AX) (g AX) + pair s (f AY) (g AY) + pair s (f AZ) (g AZ))%C.
Definition zero_vfld : vfld := fun _ _ _ _ => C0.
(** Volume element of the staggered component c: E_c lies on the half grid along its own axis (pixel size dxf there, dxb
    along the other two axes); weighted bilinear pairing. *)
Definition vol_e (dxf dxb : pixel) (c : axis) : fld := fun i j k =>
  match c with
  | AX => (dxf AX i * dxb AY j * dxb AZ k)%C | AY => (dxb AX i * dxf AY j * dxb AZ k)%C | AZ => (dxb AX i * dxb AY j * dxf AZ k)%C
  end.
Definition vol_h (dxf dxb : pixel) (c : axis) : fld := fun i j k =>
  match c with
  | AX => (dxb AX i * dxf AY j * dxf AZ k)%C | AY => (dxf AX i * dxb AY j * dxf AZ k)%C | AZ => (dxf AX i * dxf AY j * dxb AZ k)%C
  end.
Definition wpair (s : shape3) (w f g : fld) : C := grid_sum s (fun i j k => w i j k * f i j k * g i j k)%C.
Definition wvpair (s : shape3) (w f g : vfld) : C :=
  (wpair s (w AX) (f AX) (g AX) + wpair s (w AY) (f AY) (g AY) + wpair s (w AZ) (f AZ) (g AZ))%C.

(** No pixel has size 0. *)
Definition nz_pixel (s : shape3) (dx : pixel) : Prop := forall a m, (m < s a)%nat -> dx a m <> C0.
(** What is assumed of the linear solver: for this source it returned an exact solution of mat x = k0 src. *)
Definition exact3 (d : fdfd) (solver : (axis -> axis -> mat) -> bvec -> bvec) (src : vfld) : Prop :=
  forall c r, (r < dn d)%nat ->
     bmatvec (dn d) (mat3 d) (solver (mat3 d) (fun c r => RtoC (d_k0 d) * ravel (d_shape d) (src c) r)%C) c r =
     (RtoC (d_k0 d) * ravel (d_shape d) (src c) r)%C.
(** Area of a cell in a 2-D simulation. *)
Definition area (dxb : pixel) : fld := fun i j k => (dxb AX i * dxb AY j)%C.
(** The same in 2-D, for the matrix M. *)
Definition exact2 (d : fdfd) (M : mat) (solver : mat -> vec -> vec) (src : fld) : Prop :=
  forall r, (r < dn d)%nat ->
     matvec (dn d) M (solver M (fun r => RtoC (d_k0 d) * ravel (d_shape d) src r)%C) r = (RtoC (d_k0 d) * ravel (d_shape d) src r)%C.
(** curl curl e = k0^2 eps e. *)
Definition source_free (d : fdfd) (e : vfld) : Prop := forall c i j k, in_grid (d_shape d) i j k ->
  curl_of (bwd (d_shape d) (d_dxb d)) (curl_of (fwd (d_shape d) (d_dxf d)) e) c i j k =
  (RtoC (d_k0 d * d_k0 d) * RtoC (d_eps d c i j k) * e c i j k)%C.
(** Hermitian product of stacked vectors. *)
Definition bdot (n : nat) (u v : bvec) : C := (vdot n (u AX) (v AX) + vdot n (u AY) (v AY) + vdot n (u AZ) (v AZ))%C.
(** All pixels have positive real part (uniform, or stretched by scpml, C38). *)
Definition pos_pixel (s : shape3) (dx : pixel) : Prop := forall a m, (m < s a)%nat -> 0 < re (dx a m).
(** Sample positions along the axis: left edges or centres. *)
Definition pml_pos (for_h : bool) (h : R) : nat -> R := if for_h then pos_h h else pos_e h.
(** The pixel array of a grid of spacing h whose cells are multiplied by sc. *)
Definition stretched (h : R) (sc : axis -> nat -> C) : pixel := fun a m => (RtoC h * sc a m)%C.
