(** C181, C182: lossless periodic runs keep the difference of their initial states, and lock-in averages of a CW run give the FDFD solution.
    Theorems only; proofs are in Proof_lockin.v. *)
From Coq Require Import Reals List Arith Lra Lia.
From Verif Require Import Cx Arr Model_yee Spec_yee Model_fdtd Spec_fdtd Spec_sym Model_fdfd Spec_fdfd Spec_harm Spec_conv Spec_lockin Proof_lockin Proof_conv4 Prop_harm.
Import ListNotations.
Local Open Scope R_scope.

(** C181: the energy of the difference of two runs with the same sources stays, for ever, between two multiples of its initial value. *)
Theorem C181_never_forgets : forall g kap, wf_grid g -> 1 < kap -> (forall i j k, in_grid (g_shape g) i j k -> kap <= g_eps g i j k) -> forall sch a b,
  (1 - / sqrt kap) / 2 * field_energy g false (gap a b) <= field_energy g false (gap (run g false a sch) (run g false b sch)) /\
  field_energy g false (gap (run g false a sch) (run g false b sch)) <= 2 / (1 - / sqrt kap) * field_energy g false (gap a b).
Proof. exact memory. Qed.
Print Assumptions C181_never_forgets.
(** A run with a CW source therefore never settles: its distance to the periodic fields given by FDFD keeps its size. *)
Theorem C181_cw_never_settles : forall g kap, wf_grid g -> 1 < kap -> (forall i j k, in_grid (g_shape g) i j k -> kap <= g_eps g i j k) ->
  forall om solver src sch, let d := at_wavenumber g (lattice_wavenumber g om) in
  lattice_wavenumber g om <> 0 -> exact3 d solver src -> (forall n, electric (sch n)) ->
  (forall n c i j k, in_grid (g_shape g) i j k -> current src_e (sch n) c i j k = (- (Ci * at_time om ((INR n + 1 / 2) * dt_of g) src c i j k))%C) ->
  forall st0 n, let periodic t := mkState (at_time om t (fst (solve3 d solver src))) (at_time om (t + dt_of g / 2) (snd (solve3 d solver src))) in
  let away k := field_energy g false (gap (run g false st0 (map sch (seq 0 k))) (periodic (INR k * dt_of g))) in
  (1 - / sqrt kap) / 2 * away 0%nat <= away n /\ away n <= 2 / (1 - / sqrt kap) * away 0%nat.
Proof. exact never_settles. Qed.
Print Assumptions C181_cw_never_settles.
(** Non-vacuity: two runs of the same schedule on n cells of permittivity 4, one of them started with a unit magnetic field in one cell, the other
    from rest: the energy of the difference, at least 1 at the start, is never less than 1/4. *)
Example C181_nonvacuous : forall n w, (1 <= n)%nat -> 0 < w -> 1 <= field_energy (g4 n w) false (gap unit_h zero_state) /\
  forall sch, 1 / 4 <= field_energy (g4 n w) false (gap (run (g4 n w) false unit_h sch) (run (g4 n w) false zero_state sch)).
Proof.
  intros n w Hn Hw. pose proof (g4_wf n w Hn Hw) as W. assert (E : forall i j k, in_grid (g_shape (g4 n w)) i j k -> 4 <= g_eps (g4 n w) i j k) by (intros; cbn [g_eps g4]; lra).
  assert (H1 : 1 <= field_energy (g4 n w) false (gap unit_h zero_state)).
  { assert (I : in_grid (g_shape (g4 n w)) 0 0 0) by (unfold in_grid; cbn [g_shape g4]; lia).
    destruct (cell_e (g4 n w) 4 ltac:(lra) E (gap unit_h zero_state) AX 0%nat 0%nat 0%nat I) as [_ B].
    eapply Rle_trans; [| exact B]. unfold gap, unit_h, zero_state, zero_vfld, Model_fdtd.zero_vfld, Cn2. cbn [f_h re im Csub C1 C0]. lra. }
  split; [exact H1 |]. intro sch. destruct (C181_never_forgets (g4 n w) 4 W ltac:(lra) E sch unit_h zero_state) as [A _].
  assert (S4 : sqrt 4 = 2) by (replace 4 with (2 * 2) by ring; apply sqrt_square; lra). rewrite S4 in A. lra.
Qed.

(** C182: yet the FDFD solution can be read off such a run.  Unless the frequency is a resonance (a source without solution), the lock-in
    averages over any window of n states, wherever it starts and whatever the run was started from, are within A / n of the FDFD fields. *)
Theorem C182_lock_in : forall g kap, wf_grid g -> 1 < kap -> (forall i j k, in_grid (g_shape g) i j k -> kap <= g_eps g i j k) ->
  forall om solver src sch, let d := at_wavenumber g (lattice_wavenumber g om) in
  lattice_wavenumber g om <> 0 -> exact3 d solver src -> (forall n, electric (sch n)) ->
  (forall n c i j k, in_grid (g_shape g) i j k -> current src_e (sch n) c i j k = (- (Ci * at_time om ((INR n + 1 / 2) * dt_of g) src c i j k))%C) ->
  (forall j, exists solver, exact3 d solver j) -> forall st0, exists A, forall n0 n c i j k, (1 <= n)%nat -> in_grid (g_shape g) i j k ->
  let rec m := run g false st0 (map sch (seq 0 m)) in
  Cabs (lock_in_e g om rec n0 n c i j k - fst (solve3 d solver src) c i j k)%C <= A / INR n /\
  Cabs (lock_in_h g om rec n0 n c i j k - snd (solve3 d solver src) c i j k)%C <= A / INR n.
Proof. exact lock_in_close. Qed.
Print Assumptions C182_lock_in.
(** No frequency above the band of the grid is a resonance. *)
Theorem C182_above_band : forall g kap, wf_grid g -> 1 < kap -> (forall i j k, in_grid (g_shape g) i j k -> kap <= g_eps g i j k) ->
  forall om, 2 / (sqrt kap * dt_of g) < Rabs (lattice_wavenumber g om) ->
  forall j, exists solver, exact3 (at_wavenumber g (lattice_wavenumber g om)) solver j.
Proof. exact above_band. Qed.
Print Assumptions C182_above_band.
(** Non-vacuity: on every grid and for every field x, at the frequency pi / dt, x is the FDFD solution for some source, which a schedule
    injects; the frequency is above the band, and lock-in averages of the run from rest converge to x. *)
Example C182_nonvacuous : forall g kap x, wf_grid g -> 1 < kap -> (forall i j k, in_grid (g_shape g) i j k -> kap <= g_eps g i j k) ->
  let om := PI / dt_of g in let d := at_wavenumber g (lattice_wavenumber g om) in
  exists sch A, forall n0 n c i j k, (1 <= n)%nat -> in_grid (g_shape g) i j k ->
  Cabs (lock_in_e g om (fun m => run g false zero_state (map sch (seq 0 m))) n0 n c i j k - fst (solve3 d (fun _ _ => x) zero_vfld) c i j k)%C <= A / INR n.
Proof.
  intros g kap x W Hk He om d. destruct (C139_meets g x W) as (E & N & src & Hs & sch & S1 & S2). fold om in E, N, Hs, S2.
  assert (Dt : 0 < dt_of g) by (apply Proof_energy2.dt_pos; auto).
  assert (B : 2 / (sqrt kap * dt_of g) < Rabs (lattice_wavenumber g om)).
  { rewrite E, Rabs_right by (apply Rle_ge, Rlt_le, Rdiv_lt_0_compat; lra).
    assert (Sk : 1 < sqrt kap) by (rewrite <- sqrt_1; apply sqrt_lt_1_alt; lra). unfold Rdiv. apply Rmult_lt_compat_l; [lra |].
    apply Rinv_lt_contravar; [apply Rmult_lt_0_compat; auto; apply Rmult_lt_0_compat; lra |]. rewrite <- (Rmult_1_l (dt_of g)) at 1. apply Rmult_lt_compat_r; auto. }
  destruct (C182_lock_in g kap W Hk He om (fun _ _ => x) src sch N Hs S1 (fun n c i j k _ => S2 n c i j k) (C182_above_band g kap W Hk He om B) zero_state) as [A HA].
  exists sch, A. intros n0 n c i j k Hn Hin. exact (proj1 (HA n0 n c i j k Hn Hin)).
Qed.
