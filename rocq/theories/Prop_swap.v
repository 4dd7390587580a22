(** C176: exchanging and rotating the axes of a simulation. *)
From Coq Require Import Reals List Arith Lra Lia.
From Verif Require Import Cx Arr Model_coupling Model_yee Spec_yee Model_fdtd Spec_fdtd Model_fdfd Spec_fdfd Model_fdfdc Spec_fdfdc Spec_fdfdsy Proof_fdfdc3 Proof_fdfdsy2 Model_mode Spec_mode
  Spec_swap Proof_swap Proof_swap2 Proof_swap3.
Import ListNotations.
Local Open Scope R_scope.

(** x and y exchanged, time domain: the simulation of the exchanged structure with the exchanged sources is the exchanged simulation. *)
Theorem C176_fdtd_partial : forall g, (2 <= g_ndim g)%nat -> forall jax sch st,
  run (flip_grid g) jax (flip_state st) (map (map flip_source) sch) = flip_state (run g jax st sch).
Proof. exact flip_run. Qed.
Print Assumptions C176_fdtd_partial.
(** Frequency domain, absorbing layers, Bloch phases and complex permittivities included. *)
Theorem C176_fdfd_3d_partial : forall d solver solver' src, unique3 d -> exact3c d solver src -> exact3c (flip_cf d) solver' (flip_e src) ->
  let (e, h) := solve3c d solver src in let (e', h') := solve3c (flip_cf d) solver' (flip_e src) in
  same_v (cf_shape (flip_cf d)) e' (flip_e e) /\ same_v (cf_shape (flip_cf d)) h' (flip_h h).
Proof. exact flip3. Qed.
Print Assumptions C176_fdfd_3d_partial.
Theorem C176_fdfd_te_partial : forall d solver solver' src, unique_te d -> exact2c d (mat_ez_c d) solver src -> exact2c (flip_cf d) (mat_ez_c (flip_cf d)) solver' (flip src) ->
  let (e, h) := solve2_te_c d solver src in let (e', h') := solve2_te_c (flip_cf d) solver' (flip src) in
  same_v (cf_shape (flip_cf d)) e' (flip_e e) /\ same_v (cf_shape (flip_cf d)) h' (flip_h h).
Proof. exact flip_te. Qed.
Print Assumptions C176_fdfd_te_partial.
(** The source of a TM simulation is magnetic: it changes sign like H. *)
Theorem C176_fdfd_tm_partial : forall d solver solver' src, unique_tm d -> exact2c d (mat_hz_c d) solver src ->
  exact2c (flip_cf d) (mat_hz_c (flip_cf d)) solver' (fun i j k => - flip src i j k)%C ->
  let (e, h) := solve2_tm_c d solver src in let (e', h') := solve2_tm_c (flip_cf d) solver' (fun i j k => - flip src i j k)%C in
  same_v (cf_shape (flip_cf d)) e' (flip_e e) /\ same_v (cf_shape (flip_cf d)) h' (flip_h h).
Proof. exact flip_tm. Qed.
Print Assumptions C176_fdfd_tm_partial.
(** Absorbing structures have at most one solution. *)
Theorem C176_unique_partial : forall d sigma, plain_grid d -> lossy d sigma -> unique3 d /\ unique_te d /\ unique_tm d.
Proof.
  intros d sigma Hp Hl. split; [| split]; intros src e e' H H'.
  - exact (uniq3 d Hp sigma Hl src e e' H H').
  - exact (uniq_te d Hp sigma Hl src e e' H H').
  - exact (uniq_tm d Hp sigma Hl src e e' H H').
Qed.
Print Assumptions C176_unique_partial.
Example C176_unique_meets : plain_grid (two_lossy (mkC 2 1) 3) /\ lossy (two_lossy (mkC 2 1) 3) 1.
Proof. split; split; cbn; try lra; try (exists (fun _ => 1); split; reflexivity). left. intros. lra. Qed.

(** Modes of a cross section: the same propagation constants, and the exchanged fields up to a phase. *)
Theorem C176_mode_spectrum_partial : forall q lam, is_eigenvalue (flip_q q) lam <-> is_eigenvalue q lam.
Proof. exact flip_spectrum. Qed.
Print Assumptions C176_mode_spectrum_partial.
Theorem C176_mode_fields_partial : forall q beta U V, eigen2 q (RtoC (beta * beta)) U V ->
  eigen2 (flip_q q) (RtoC (beta * beta)) (flip_vec q V) (flip_vec q U) /\
  exists t,
  (forall c i j k, in_grid (q_shape (flip_q q)) i j k -> mode_h (flip_q q) beta (flip_vec q V) (flip_vec q U) c i j k = (cis t * flip_h (mode_h q beta U V) c i j k)%C) /\
  (forall c i j k, in_grid (q_shape (flip_q q)) i j k -> mode_e (flip_q q) beta (mode_h (flip_q q) beta (flip_vec q V) (flip_vec q U)) c i j k =
     (cis t * flip_e (mode_e q beta (mode_h q beta U V)) c i j k)%C).
Proof. intros q beta U V H. split; [apply flip_eigen; exact H | apply flip_e_phase]. Qed.
Print Assumptions C176_mode_fields_partial.

(** All axes moved up by one: true in a uniform medium ... *)
Theorem C176_cycle_fdtd_partial : forall g x, g_ndim g = 3%nat -> (forall i j k, g_eps g i j k = x) -> forall jax sch st,
  run (cycle_grid g) jax (cycle_state st) (map (map cycle_source) sch) = cycle_state (run g jax st sch).
Proof. exact cycle_run. Qed.
Print Assumptions C176_cycle_fdtd_partial.
Theorem C176_cycle_fdfd_partial : forall d x solver solver' src, (forall i j k, cf_eps d i j k = x) -> unique3 d -> exact3c d solver src -> exact3c (cycle_cf d) solver' (cycle_v src) ->
  let (e, h) := solve3c d solver src in let (e', h') := solve3c (cycle_cf d) solver' (cycle_v src) in
  same_v (cf_shape (cycle_cf d)) e' (cycle_v e) /\ same_v (cf_shape (cycle_cf d)) h' (cycle_v h).
Proof. exact cycle3. Qed.
Print Assumptions C176_cycle_fdfd_partial.
(** ... and false for two layers, after one step: the permittivity is not averaged along z. *)
Theorem C176_cycle_refuted : exists g st, wf_grid g /\ (forall i j k, 1 <= g_eps g i j k) /\
  forall jax, free_run (cycle_grid g) jax (cycle_state st) 1 <> cycle_state (free_run g jax st 1).
Proof. exists two_layers, sheet. exact cycle_bad. Qed.
Print Assumptions C176_cycle_refuted.
(** Exchanging or moving the axes of a 2 x 3 x 4 grid. *)
Example C176_axes : let g := mkGrid (fun a => match a with AX => 2 | AY => 3 | AZ => 4 end%nat) 3 (fun _ => 1) (fun i j k => INR (i + 10 * j + 100 * k)) in
  map (g_shape (flip_grid g)) [AX; AY; AZ] = [3; 2; 4]%nat /\ map (g_shape (cycle_grid g)) [AX; AY; AZ] = [3; 4; 2]%nat /\
  g_eps (flip_grid g) 2%nat 1%nat 3%nat = g_eps g 1%nat 2%nat 3%nat /\ g_eps (cycle_grid g) 2%nat 3%nat 1%nat = g_eps g 1%nat 2%nat 3%nat /\
  flip_e (flip_e (fun _ _ _ _ => Ci)) AX 0%nat 0%nat 0%nat = Ci.
Proof. repeat split; reflexivity. Qed.
