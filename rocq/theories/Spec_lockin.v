(** Lock-in averages of a recorded FDTD run, for C181 and C182. *)
From Coq Require Import Reals List Arith.
From Verif Require Import Cx Arr Model_yee Spec_yee Model_fdtd Spec_fdtd.
Import ListNotations.
Local Open Scope R_scope.

(** The states n0, n0 + 1, ..., n0 + n - 1 of a record, each multiplied by e^{+ i om t} at its own time t, averaged: E of state m is at
    m dt, H at (m + 1/2) dt. *)
Definition lock_in_e (g : fgrid) (om : R) (rec : nat -> fstate) (n0 n : nat) : vfld := fun c i j k =>
  (Csum n (fun m => cis (om * (INR (n0 + m) * dt_of g)) * f_e (rec (n0 + m)%nat) c i j k) / RtoC (INR n))%C.
Definition lock_in_h (g : fgrid) (om : R) (rec : nat -> fstate) (n0 n : nat) : vfld := fun c i j k =>
  (Csum n (fun m => cis (om * ((INR (n0 + m) + 1 / 2) * dt_of g)) * f_h (rec (n0 + m)%nat) c i j k) / RtoC (INR n))%C.
(** A unit magnetic field along x in the first cell, for the example of C181. *)
Definition unit_h : fstate := mkState zero_vfld (fun c i j k => match c, i, j, k with AX, O, O, O => C1 | _, _, _, _ => C0 end).
