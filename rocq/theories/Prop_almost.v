(** C185: at all but finitely many frequencies a lossless CW run is bounded and gives the FDFD fields.  Theorems only; proofs are in Proof_almost.v. *)
From Coq Require Import Reals List Arith Lra Lia.
From Verif Require Import Cx Arr Model_yee Spec_yee Model_fdtd Spec_fdtd Spec_sym Model_fdfd Spec_fdfd Spec_harm Spec_lockin Spec_drive Proof_almost.
Import ListNotations.
Local Open Scope R_scope.

(** The grid has at most three resonances per cell: at every other positive lattice wave number FDFD has a solution for every source. *)
Theorem C185_finitely_many : forall g, (forall i j k, in_grid (g_shape g) i j k -> 0 < g_eps g i j k) ->
  exists ks : list R, (length ks <= 3 * npix (g_shape g))%nat /\ forall k, 0 < k -> (In k ks <-> exists src, ~ exists solver, exact3 (at_wavenumber g k) solver src).
Proof. exact resonances. Qed.
Print Assumptions C185_finitely_many.
(** At every frequency whose lattice wave number is none of these, every CW run is bounded, whatever its source and initial fields, and its
    lock-in averages over n states are within A / n of the fields FDFD computes for the source. *)
Theorem C185_almost_every_frequency : forall g kap, wf_grid g -> 1 < kap -> (forall i j k, in_grid (g_shape g) i j k -> kap <= g_eps g i j k) ->
  exists ks : list R, (length ks <= 3 * npix (g_shape g))%nat /\ forall om, 0 < lattice_wavenumber g om ->
  (In (lattice_wavenumber g om) ks <-> exists src, ~ exists solver, exact3 (at_wavenumber g (lattice_wavenumber g om)) solver src) /\
  (~ In (lattice_wavenumber g om) ks -> forall src sch, let d := at_wavenumber g (lattice_wavenumber g om) in (forall n, electric (sch n)) ->
   (forall n c i j k, in_grid (g_shape g) i j k -> current src_e (sch n) c i j k = (- (Ci * at_time om ((INR n + 1 / 2) * dt_of g) src c i j k))%C) ->
   (exists solver, exact3 d solver src) /\ forall st0,
   (exists B, forall n, field_energy g false (run g false st0 (map sch (seq 0 n))) <= B) /\
   forall solver, exact3 d solver src -> exists A, forall n0 n c i j k, (1 <= n)%nat -> in_grid (g_shape g) i j k ->
   let rec m := run g false st0 (map sch (seq 0 m)) in
   Cabs (lock_in_e g om rec n0 n c i j k - fst (solve3 d solver src) c i j k)%C <= A / INR n /\
   Cabs (lock_in_h g om rec n0 n c i j k - snd (solve3 d solver src) c i j k)%C <= A / INR n).
Proof. exact almost. Qed.
Print Assumptions C185_almost_every_frequency.
(** Non-vacuity: two cells of permittivity 4: frequency pi/3 is a resonance, frequency pi is none. *)
Example C185_nonvacuous : wf_grid two_grid /\ (forall i j k, in_grid (g_shape two_grid) i j k -> 4 <= g_eps two_grid i j k) /\
  lattice_wavenumber two_grid (PI / 3) = 1 /\ (exists src, ~ exists solver, exact3 (at_wavenumber two_grid (lattice_wavenumber two_grid (PI / 3))) solver src) /\
  lattice_wavenumber two_grid PI = 2 /\ (forall src, exists solver, exact3 (at_wavenumber two_grid (lattice_wavenumber two_grid PI)) solver src).
Proof. exact two_frequencies. Qed.
