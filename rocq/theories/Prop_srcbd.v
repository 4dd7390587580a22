(** C184: what sources add to a lossless run.  Theorems only; proofs are in Proof_srcbd.v. *)
From Coq Require Import Reals List Arith Lra Lia.
From Verif Require Import Cx Arr Model_yee Spec_yee Model_fdtd Spec_fdtd Spec_sym Model_fdfd Spec_fdfd Spec_harm Spec_conv Spec_drive Spec_fdfdc Spec_fdfdst Proof_srcbd.
Import ListNotations.
Local Open Scope R_scope.

(** Permittivity above 1: the size of the fields (square root of the energy) after any run is at most a constant times the size of the initial
    fields plus the sizes of the fields that the sources of each step would produce in one step from rest. *)
Theorem C184_sources_add_up : forall g kap, wf_grid g -> 1 < kap -> (forall i j k, in_grid (g_shape g) i j k -> kap <= g_eps g i j k) -> forall st0 sch n,
  sqrt (field_energy g false (run g false st0 (map sch (seq 0 n)))) <=
  sqrt (2 / (1 - / sqrt kap)) * (sqrt (field_energy g false st0) + Rsum n (fun k => sqrt (field_energy g false (step g false zero_state (sch k))))).
Proof. exact one_uniform. Qed.
Print Assumptions C184_sources_add_up.
(** In terms of the currents: dt times three times the norm of the electric current plus the norm of the magnetic one, summed over the steps. *)
Theorem C184_currents : forall g kap, wf_grid g -> 1 < kap -> (forall i j k, in_grid (g_shape g) i j k -> kap <= g_eps g i j k) -> forall st0 sch n,
  sqrt (field_energy g false (run g false st0 (map sch (seq 0 n)))) <=
  sqrt (2 / (1 - / sqrt kap)) * (sqrt (field_energy g false st0) +
    dt_of g * Rsum n (fun k => 3 * vnorm2 (g_shape g) (current src_e (sch k)) + vnorm2 (g_shape g) (current src_h (sch k)))).
Proof. exact currents_bound. Qed.
Print Assumptions C184_currents.
(** Two runs with different initial fields and different sources differ by no more than the differences put in, times the same constant. *)
Theorem C184_two_runs : forall g kap, wf_grid g -> 1 < kap -> (forall i j k, in_grid (g_shape g) i j k -> kap <= g_eps g i j k) -> forall a b s1 s2 n,
  sqrt (field_energy g false (gap (run g false a (map s1 (seq 0 n))) (run g false b (map s2 (seq 0 n))))) <=
  sqrt (2 / (1 - / sqrt kap)) * (sqrt (field_energy g false (gap a b)) +
    Rsum n (fun k => sqrt (field_energy g false (gap (step g false zero_state (s1 k)) (step g false zero_state (s2 k)))))).
Proof. exact two_uniform. Qed.
Print Assumptions C184_two_runs.
(** Permittivity at least 1 (vacuum included): the same with a factor that grows in proportion to the number of steps. *)
Theorem C184_two_runs_vacuum : forall g, wf_grid g -> (forall i j k, in_grid (g_shape g) i j k -> 1 <= g_eps g i j k) -> forall a b s1 s2 n,
  sqrt (field_energy g false (gap (run g false a (map s1 (seq 0 n))) (run g false b (map s2 (seq 0 n))))) <=
  4 * (INR n + 1) * (sqrt (field_energy g false (gap a b)) +
    Rsum n (fun k => sqrt (field_energy g false (gap (step g false zero_state (s1 k)) (step g false zero_state (s2 k)))))).
Proof. exact two_linear. Qed.
Print Assumptions C184_two_runs_vacuum.
(** A CW source adds the same amount at every step: its fields grow at most in proportion to the number of steps, the rate of C183. *)
Theorem C184_cw_rate : forall g kap, wf_grid g -> 1 < kap -> (forall i j k, in_grid (g_shape g) i j k -> kap <= g_eps g i j k) ->
  forall om src sch, (forall n, electric (sch n)) ->
  (forall n c i j k, in_grid (g_shape g) i j k -> current src_e (sch n) c i j k = (- (Ci * at_time om ((INR n + 1 / 2) * dt_of g) src c i j k))%C) ->
  forall st0 n, sqrt (field_energy g false (run g false st0 (map sch (seq 0 n)))) <=
  sqrt (2 / (1 - / sqrt kap)) * (sqrt (field_energy g false st0) + INR n * sqrt (field_energy g false (step g false zero_state (sch 0%nat)))).
Proof. exact cw_rate. Qed.
Print Assumptions C184_cw_rate.
(** Non-vacuity: the resonant ring of C183, driven from rest: the fields grow exactly in proportion to the number of steps. *)
Example C184_nonvacuous : let F n := sqrt (field_energy two_grid false (run two_grid false zero_state (map (cw_schedule two_grid (PI / 3) alternating) (seq 0 n)))) in
  let S := sqrt (field_energy two_grid false (step two_grid false zero_state (cw_schedule two_grid (PI / 3) alternating 0%nat))) in
  0 < S /\ (forall n, F n <= 2 * (INR n * S)) /\ exists c a, 0 < c /\ forall n, c * INR n - a <= F n.
Proof. exact two_rate. Qed.
