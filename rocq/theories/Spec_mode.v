(** Vocabulary for the waveguide-mode properties. *)
From Coq Require Import Reals Arith ZArith List.
From Verif Require Import Cx Arr Model_yee Spec_yee Model_coupling Model_fdfd Spec_fdfd Model_mode.
Local Open Scope R_scope.

(** Fields f(x, y) e^{kz z}: the derivative along z is multiplication by kz. *)
Definition with_kz (D : fld -> axis -> fld) (kz : C) : fld -> axis -> fld := fun f a =>
  match a with AZ => fun i j k => (kz * f i j k)%C | _ => D f a end.
(** Source-free Maxwell equations for such fields at angular frequency w (time dependence e^{i w t}):
    curl e = - i w h,  curl h = i w eps e,  at every cell; De, Dh: the (staggered) differences of e and of h. *)
Definition maxwell_mode (s : shape3) (De Dh : fld -> axis -> fld) (kz : C) (w : R) (eps : axis -> rfld) (e h : vfld) : Prop :=
  (forall c i j k, in_grid s i j k -> curl_of (with_kz De kz) e c i j k = (- (Ci * RtoC w * h c i j k))%C) /\
  (forall c i j k, in_grid s i j k -> curl_of (with_kz Dh kz) h c i j k = (Ci * RtoC w * RtoC (eps c i j k) * e c i j k)%C).
(** No magnetic charge. *)
Definition div_free (s : shape3) (D : fld -> axis -> fld) (kz : C) (h : vfld) : Prop :=
  forall i j k, in_grid s i j k -> divergence (with_kz D kz) h i j k = C0.
(** The complex power e x conj(h) along axis a. *)
Definition power_along (a : axis) (e h : axis -> C) : C :=
  match a with
  | AX => (e AY * Cconj (h AZ) - e AZ * Cconj (h AY))%C
  | AY => (e AZ * Cconj (h AX) - e AX * Cconj (h AZ))%C
  | AZ => (e AX * Cconj (h AY) - e AY * Cconj (h AX))%C
  end.

(** (vx, vy) is an eigenvector of the 2-d operator / v of the 1-d operator, for the eigenvalue lam. *)
Definition eigen2 (q : mode_solver) (lam : C) (vx vy : vec) : Prop := forall r, (r < q_n q)%nat ->
  (matvec (q_n q) (wg_matrix q AX AX) vx r + matvec (q_n q) (wg_matrix q AX AY) vy r)%C = (lam * vx r)%C /\
  (matvec (q_n q) (wg_matrix q AY AX) vx r + matvec (q_n q) (wg_matrix q AY AY) vy r)%C = (lam * vy r)%C.
Definition eigen1 (q : mode_solver) (lam : C) (v : vec) : Prop := forall r, (r < q_n q)%nat ->
  matvec (q_n q) (wg_matrix_1d q) v r = (lam * v r)%C.
(** Positive permittivity at every cell. *)
Definition pos_eps (q : mode_solver) : Prop := forall i j k, in_grid (q_shape q) i j k -> 0 < q_eps q i j k.
(** The field in the plane z = 0 as the array (component, x, y) that poynting_fn takes. *)
Definition as_array (f : vfld) : nat -> nat -> nat -> C := fun c i j => f (match c with O => AX | 1%nat => AY | _ => AZ end) i j 0%nat.

(** A single-mode waveguide along a lattice with spacing dx: u'' + beta^2 u = s, second-order differences. *)
Definition lattice_wave (beta dx : R) (s u : Z -> C) : Prop := forall x : Z,
  (u (x + 1)%Z - RtoC 2 * u x + u (x - 1)%Z + RtoC (beta * beta * (dx * dx)) * u x = RtoC (dx * dx) * s x)%C.
(** The free wave of that lattice: q = e^{-i b dx} with 0 < b dx < pi travels outwards on both sides (time dependence e^{i w t}). *)
Definition free_wave (beta dx b : R) : Prop := 0 < b * dx < PI /\ 2 - 2 * cos (b * dx) = (beta * dx) * (beta * dx).
(** u is [amp] times the outgoing free wave at the cells x0, x0 + dir, x0 + 2 dir, ... *)
Definition outgoing_at (b dx : R) (u : Z -> C) (x0 dir : Z) (amp : C) : Prop :=
  forall n : nat, u (x0 + dir * Z.of_nat n)%Z = (amp * cis (- (b * dx * INR n)))%C.

(** The components in which a mode solver for a cross section normal to va expresses a field: right-handed, (x', y', z') with z' along va. *)
Definition right_handed (a b c : axis) : Prop := (a, b, c) = (AX, AY, AZ) \/ (a, b, c) = (AY, AZ, AX) \/ (a, b, c) = (AZ, AX, AY).
