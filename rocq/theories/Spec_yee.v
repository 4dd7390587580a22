(** Vocabulary for the finite-difference properties: cells, sums over the grid, inner products, neighbours across a
    Bloch-periodic boundary, divergence.  Independent of the code's matrices and rolls. *)
From Coq Require Import Reals Arith.
From Verif Require Import Cx Arr Model_yee.
Local Open Scope R_scope.

(** (i, j, k) is a cell of a grid of shape s. *)
Definition in_grid (s : shape3) (i j k : nat) : Prop := (i < s AX)%nat /\ (j < s AY)%nat /\ (k < s AZ)%nat.
Definition positive_shape (s : shape3) : Prop := forall a, (0 < s a)%nat.

(** Sum over all cells; <f, g> = sum f conj(g), of scalar and of vector fields. *)
Definition grid_sum (s : shape3) (F : fld) : C :=
  Csum (s AX) (fun i => Csum (s AY) (fun j => Csum (s AZ) (fun k => F i j k))).
Definition inner (s : shape3) (f g : fld) : C := grid_sum s (fun i j k => f i j k * Cconj (g i j k))%C.
Definition vinner (s : shape3) (f g : vfld) : C :=
  (inner s (f AX) (g AX) + inner s (f AY) (g AY) + inner s (f AZ) (g AZ))%C.
(** Same for raveled vectors of length n. *)
Definition vdot (n : nat) (u v : vec) : C := Csum n (fun r => u r * Cconj (v r))%C.

(** 1-D sequences of n samples extended quasi-periodically, v(m + n) = b v(m): value right and left of sample m. *)
Definition right_of (n : nat) (b : C) (v : nat -> C) (m : nat) : C := if Nat.eqb (m + 1) n then (b * v 0%nat)%C else v (m + 1)%nat.
Definition left_of (n : nat) (b : C) (v : nat -> C) (m : nat) : C :=
  match m with O => (Cconj b * v (n - 1)%nat)%C | S m' => v m' end.
(** The line of a field through (i, j, k) along an axis. *)
Definition line (a : axis) (f : fld) (i j k : nat) : nat -> C := fun m =>
  match a with AX => f m j k | AY => f i m k | AZ => f i j m end.
(** Forward and backward difference quotients of a Bloch-periodic field; 0 along an axis with a single cell. *)
Definition fwd_quot (s : shape3) (dx : pixel) (bl : axis -> C) (a : axis) (f : fld) : fld := fun i j k =>
  let m := coord a i j k in
  if Nat.eqb (s a) 1 then C0 else ((right_of (s a) (bl a) (line a f i j k) m - f i j k) / dx a m)%C.
Definition bwd_quot (s : shape3) (dx : pixel) (bl : axis -> C) (a : axis) (f : fld) : fld := fun i j k =>
  let m := coord a i j k in
  if Nat.eqb (s a) 1 then C0 else ((f i j k - left_of (s a) (bl a) (line a f i j k) m) / dx a m)%C.

(** Divergence of a vector field for a given difference operator. *)
Definition divergence (d : fld -> axis -> fld) (v : vfld) : fld := fun i j k =>
  (d (v AX) AX i j k + d (v AY) AY i j k + d (v AZ) AZ i j k)%C.
