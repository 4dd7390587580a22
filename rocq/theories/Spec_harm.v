(** Time-harmonic fields, work done by currents, and pairings for the FDTD theorems C139 - C141. *)
From Coq Require Import Reals List Arith.
From Verif Require Import Cx Arr Model_yee Spec_yee Model_fdtd Spec_fdtd Model_fdfd Spec_fdfd.
Import ListNotations.
Local Open Scope R_scope.

(** The field f with time dependence e^{- i om t}, at time t. *)
Definition at_time (om t : R) (f : vfld) : vfld := fun c i j k => (cis (- (om * t)) * f c i j k)%C.
(** The FDFD problem on the grid of an FDTD simulation at vacuum wave number k. *)
Definition at_wavenumber (g : fgrid) (k : R) : fdfd := mkFdfd (g_shape g) (g_dx g) (g_dx g) (fun _ => C1) k (eps_t g false).
(** The wave number FDTD has at angular frequency om (c = 1): the time derivative replaced by the leapfrog difference. *)
Definition lattice_wavenumber (g : fgrid) (om : R) : R := 2 * sin (om * dt_of g / 2) / dt_of g.

(** Re sum f conj(g) over components and cells. *)
Definition overlap (s : shape3) (f g : vfld) : R :=
  sum3 (fun c => rgrid_sum s (fun i j k => re (f c i j k * Cconj (g c i j k))%C)).
Definition plus (f g : vfld) : vfld := fun c i j k => (f c i j k + g c i j k)%C.
(** Energy fed into the fields during the step from st1 to st2 = step st1 s2, s1 being the sources of the step that led to st1:
    minus the work of J on the E field before and after, and of the magnetic current (before and after) on H. *)
Definition work (g : fgrid) (s1 s2 : list source) (st1 st2 : fstate) : R :=
  - dt_of g * (overlap (g_shape g) (current src_e s2) (plus (f_e st1) (f_e st2)) +
               overlap (g_shape g) (plus (current src_h s1) (current src_h s2)) (f_h st1)).

(** E after n steps from rest, and the electric current of step n. *)
Definition e_after (g : fgrid) (sch : list (list source)) (n : nat) : vfld := f_e (run g false zero_state (firstn n sch)).
Definition current_of (sch : list (list source)) (n : nat) : vfld := current src_e (nth n sch []).
(** A current w(n) of component c at one cell, n = 0, 1, ... *)
Definition dipole (c : axis) (p : nat * nat * nat) (w : C) : source :=
  mkSource (Some (fun _ _ _ _ => w)) None (fun c' i j k => match c, c' with AX, AX | AY, AY | AZ, AZ =>
    Nat.eqb i (fst (fst p)) && Nat.eqb j (snd (fst p)) && Nat.eqb k (snd p) | _, _ => false end)%bool.
Definition dipole_run (c : axis) (p : nat * nat * nat) (w : list C) : list (list source) := map (fun x => [dipole c p x]) w.
Definition at_cell (f : vfld) (c : axis) (p : nat * nat * nat) : C := f c (fst (fst p)) (snd (fst p)) (snd p).
Definition cell_in (s : shape3) (p : nat * nat * nat) : Prop := in_grid s (fst (fst p)) (snd (fst p)) (snd p).
