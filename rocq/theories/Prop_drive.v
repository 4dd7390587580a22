(** C183: a CW run of a lossless simulation stays bounded exactly when FDFD has a solution for its source.  Theorems only; proofs are in
    Proof_fred.v and Proof_drive.v. *)
From Coq Require Import Reals List Arith Lra Lia.
From Verif Require Import Cx Arr Model_yee Spec_yee Model_fdtd Spec_fdtd Spec_sym Model_fdfd Spec_fdfd Spec_harm Spec_drive Proof_drive.
Import ListNotations.
Local Open Scope R_scope.

(** Permittivity above 1: for every source, frequency and initial state, the energy is bounded for all time if and only if the linear system of
    FDFD at the lattice wave number has a solution. *)
Theorem C183_bounded_iff_solvable : forall g kap, wf_grid g -> 1 < kap -> (forall i j k, in_grid (g_shape g) i j k -> kap <= g_eps g i j k) ->
  forall om src sch, let d := at_wavenumber g (lattice_wavenumber g om) in
  lattice_wavenumber g om <> 0 -> (forall n, electric (sch n)) ->
  (forall n c i j k, in_grid (g_shape g) i j k -> current src_e (sch n) c i j k = (- (Ci * at_time om ((INR n + 1 / 2) * dt_of g) src c i j k))%C) ->
  forall st0, (exists B, forall n, field_energy g false (run g false st0 (map sch (seq 0 n))) <= B) <-> (exists solver, exact3 d solver src).
Proof. exact driven_bounded. Qed.
Print Assumptions C183_bounded_iff_solvable.
(** Otherwise the fields grow in proportion to the number of steps, already for permittivity at least 1. *)
Theorem C183_linear_growth : forall g, wf_grid g -> (forall i j k, in_grid (g_shape g) i j k -> 1 <= g_eps g i j k) ->
  forall om src sch, let d := at_wavenumber g (lattice_wavenumber g om) in
  lattice_wavenumber g om <> 0 -> (forall n, electric (sch n)) ->
  (forall n c i j k, in_grid (g_shape g) i j k -> current src_e (sch n) c i j k = (- (Ci * at_time om ((INR n + 1 / 2) * dt_of g) src c i j k))%C) ->
  (~ exists solver, exact3 d solver src) -> forall st0, exists c a, 0 < c /\
  forall n, c * INR n - a <= sqrt (field_energy g false (run g false st0 (map sch (seq 0 n)))).
Proof. exact driven_growth. Qed.
Print Assumptions C183_linear_growth.
(** Whether there is a solution is decided by the resonances: there is one exactly when the source is orthogonal (in the sense of reciprocity) to
    every field that solves the equations without source. *)
Theorem C183_solvable_iff_orthogonal : forall g om src, let d := at_wavenumber g (lattice_wavenumber g om) in lattice_wavenumber g om <> 0 ->
  ((exists solver, exact3 d solver src) <->
   forall v, (exists h, faraday (g_shape g) (g_dx g) (lattice_wavenumber g om) v h /\
     ampere (g_shape g) (g_dx g) (lattice_wavenumber g om) (eps_t g false) v h (fun _ _ _ _ => C0)) -> vpair (g_shape g) v src = C0).
Proof. exact solvable_iff. Qed.
Print Assumptions C183_solvable_iff_orthogonal.
(** Non-vacuity: a ring of two cells of permittivity 4 driven from rest at frequency pi/3 by the field that alternates between the cells. *)
Example C183_nonvacuous : wf_grid two_grid /\ lattice_wavenumber two_grid (PI / 3) = 1 /\ (forall n, electric (cw_schedule two_grid (PI / 3) alternating n)) /\
  (~ exists solver, exact3 (at_wavenumber two_grid (lattice_wavenumber two_grid (PI / 3))) solver alternating) /\
  forall B, exists n, B < field_energy two_grid false (run two_grid false zero_state (map (cw_schedule two_grid (PI / 3) alternating) (seq 0 n))).
Proof. exact two_driven. Qed.
