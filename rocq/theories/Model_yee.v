(** Model of the finite-difference operators of simphox/grid.py (YeeGrid.deriv, diff_fn, curl_fn) and simphox/utils.py
    (curl_fn, curl_pml_fn, d2curl_op, yee_avg and variants).  No proofs in this file.
    A scalar field of shape (s0, s1, s2) is a function of three indices; a vector field adds the component (the axis).
    The pixel sizes _dxes[i] are np.meshgrid of the cells (grid.py:358), so dx[ax] only depends on the index along ax:
    a function [axis -> nat -> C] (complex, because FDFD stretches it, fdfd.py:95-99). *)
From Coq Require Import Reals List Arith Bool.
From Verif Require Import Cx Arr Model_coupling.
Local Open Scope R_scope.

Inductive axis := AX | AY | AZ.
Definition fld := nat -> nat -> nat -> C.
Definition vfld := axis -> fld.
Definition shape3 := axis -> nat.
Definition pixel := axis -> nat -> C.

(** Reading a field with the index along one axis replaced. *)
Definition along (a : axis) (q : nat -> nat) (f : fld) : fld := fun i j k =>
  match a with AX => f (q i) j k | AY => f i (q j) k | AZ => f i j (q k) end.
Definition coord (a : axis) (i j k : nat) : nat := match a with AX => i | AY => j | AZ => k end.

(** np.roll(f, -1, axis=a)[i] = f[(i + 1) mod n];  np.roll(f, 1, axis=a)[i] = f[(i - 1) mod n]. *)
Definition nxt (n i : nat) : nat := ((i + 1) mod n)%nat.
Definition prv (n i : nat) : nat := ((i + n - 1) mod n)%nat.
Definition roll_m1 (s : shape3) (a : axis) (f : fld) : fld := along a (nxt (s a)) f.
Definition roll_p1 (s : shape3) (a : axis) (f : fld) : fld := along a (prv (s a)) f.

(** grid.py:412-430 diff_fn (numpy and jax: the same expression). *)
Definition diff_fn (s : shape3) (dx : pixel) (of_h : bool) (f : fld) (a : axis) : fld := fun i j k =>
  if of_h then ((f i j k - roll_p1 s a f i j k) / dx a (coord a i j k))%C
  else ((roll_m1 s a f i j k - f i j k) / dx a (coord a i j k))%C.

(** utils.py:165-177 curl_fn for a difference function df; [beta] given: derivative along z replaced by -i beta. *)
Definition curl_fn (df : fld -> axis -> fld) (f : vfld) : vfld := fun c i j k =>
  match c with
  | AX => (df (f AZ) AY i j k - df (f AY) AZ i j k)%C
  | AY => (df (f AX) AZ i j k - df (f AZ) AX i j k)%C
  | AZ => (df (f AY) AX i j k - df (f AX) AY i j k)%C
  end.
Definition curl_beta_fn (df : fld -> axis -> fld) (beta : R) (f : vfld) : vfld := fun c i j k =>
  match c with
  | AX => (df (f AZ) AY i j k + Ci * RtoC beta * f AY i j k)%C
  | AY => (- (Ci * RtoC beta) * f AX i j k - df (f AZ) AX i j k)%C
  | AZ => (df (f AY) AX i j k - df (f AX) AY i j k)%C
  end.

(** ** Sparse matrices: entries as a function of row and column. *)
(** sp.diags([c0, c1, c2], [0, -1, n-1]) and ([.], [0, 1, -n+1]), shape (n, n); n = 1 gives 0 (grid.py:378-386). *)
Definition d_back (n : nat) (b : C) : mat := fun i j =>
  if (n <=? 1)%nat then C0
  else ((if Nat.eqb j i then C1 else C0) + (if Nat.eqb (j + 1) i then - C1 else C0) +
        (if Nat.eqb j (i + (n - 1)) then - Cconj b else C0))%C.
Definition d_forw (n : nat) (b : C) : mat := fun i j =>
  if (n <=? 1)%nat then C0
  else ((if Nat.eqb j i then - C1 else C0) + (if Nat.eqb j (i + 1) then C1 else C0) +
        (if Nat.eqb (j + (n - 1)) i then b else C0))%C.
(** sp.kron(A, B) with B of shape (m, m); sp.eye. *)
Definition kron (m : nat) (A B : mat) : mat := fun r c => (A (r / m)%nat (c / m)%nat * B (r mod m)%nat (c mod m)%nat)%C.
Definition eye : mat := delta.
(** C-order ravel of the index (i, j, k), and back. *)
Definition ridx (s : shape3) (i j k : nat) : nat := ((i * s AY + j) * s AZ + k)%nat.
Definition ravel (s : shape3) (f : fld) : vec := fun r => f (r / (s AY * s AZ))%nat ((r / s AZ) mod s AY)%nat (r mod s AZ)%nat.
Definition npix (s : shape3) : nat := (s AX * s AY * s AZ)%nat.
(** grid.py:360-390 deriv: tile over the other axes with kron, then scale the rows by 1/dx. *)
Definition deriv (s : shape3) (dx : pixel) (bloch : axis -> C) (back : bool) (a : axis) : mat :=
  let d a := if back then d_back (s a) (bloch a) else d_forw (s a) (bloch a) in
  let t := match a with
           | AX => kron (s AY * s AZ) (d AX) eye
           | AY => kron (s AZ) (kron (s AY) eye (d AY)) eye
           | AZ => kron (s AZ) eye (d AZ)
           end in
  fun r c => (Cinv (ravel s (fun i j k => dx a (coord a i j k)) r) * t r c)%C.

(** utils.py:158-162 d2curl_op: a 3 x 3 block matrix, as the function of block row/column. *)
Definition d2curl_op (d : axis -> mat) : axis -> axis -> mat := fun r c x y =>
  match r, c with
  | AX, AY => (- d AZ x y)%C | AX, AZ => d AY x y
  | AY, AX => d AZ x y | AY, AZ => (- d AX x y)%C
  | AZ, AX => (- d AY x y)%C | AZ, AY => d AX x y
  | _, _ => C0
  end.
(** Block matrix times stacked vector. *)
Definition bmatvec (N : nat) (M : axis -> axis -> mat) (v : axis -> vec) : axis -> vec := fun r x =>
  (matvec N (M r AX) (v AX) x + matvec N (M r AY) (v AY) x + matvec N (M r AZ) (v AZ) x)%C.

(** grid.py:83-86, 358: uniform pixels; axes beyond ndim have one cell of size 1. *)
Definition uniform_dx (spacing : axis -> R) : pixel := fun a _ => RtoC (spacing a).

(** utils.py:195-200, 203-207, 210-215 yee_avg (shift=1), yee_avg_2d_z, yee_avg_jax, on a real permittivity. *)
Definition rfld := nat -> nat -> nat -> R.
Definition ralong (a : axis) (q : nat -> nat) (f : rfld) : rfld := fun i j k =>
  match a with AX => f (q i) j k | AY => f i (q j) k | AZ => f i j (q k) end.
Definition avg_axis (s : shape3) (a : axis) (p : rfld) : rfld := fun i j k => (p i j k + ralong a (prv (s a)) p i j k) / 2.
Definition yee_avg (s : shape3) (p : rfld) : axis -> rfld := fun c =>
  match c with
  | AX => avg_axis s AY p
  | AY => avg_axis s AX p
  | AZ => avg_axis s AY (avg_axis s AX p)
  end.
Definition yee_avg_2d_z (s : shape3) (p : rfld) : rfld := let p_y := avg_axis s AX p in avg_axis s AY p_y.
Definition yee_avg_jax (s : shape3) (p : rfld) : axis -> rfld := fun c =>
  let p_x := avg_axis s AY p in let p_y := avg_axis s AX p in let p_z := avg_axis s AY p_y in
  match c with AX => p_x | AY => p_y | AZ => p_z end.
