(** C139 - C141: FDTD against FDFD, energy balance with sources, reciprocity. *)
From Coq Require Import Reals List Arith Lra Lia.
From Verif Require Import Cx Arr Model_yee Spec_yee Model_fdtd Spec_fdtd Model_fdfd Spec_fdfd Spec_sym Spec_harm Proof_harm Proof_harm2 Proof_harm3 Proof_fdtd Proof_energy2.
Import ListNotations.
Local Open Scope R_scope.

(** C139: started from the FDFD solution at the lattice wave number and driven by its current, FDTD oscillates in place: E at times n dt,
    H and J at times (n + 1/2) dt, for ever. *)
Theorem C139_cw_run_is_fdfd : forall g om solver src sch, wf_grid g ->
  (forall c i j k, in_grid (g_shape g) i j k -> eps_t g false c i j k <> 0) ->
  let d := at_wavenumber g (lattice_wavenumber g om) in
  lattice_wavenumber g om <> 0 -> exact3 d solver src -> (forall n, electric (sch n)) ->
  (forall n c i j k, in_grid (g_shape g) i j k -> current src_e (sch n) c i j k = (- (Ci * at_time om ((INR n + 1 / 2) * dt_of g) src c i j k))%C) ->
  forall n c i j k, in_grid (g_shape g) i j k ->
  let (e, h) := solve3 d solver src in
  let st := run g false (mkState e (at_time om (dt_of g / 2) h)) (map sch (seq 0 n)) in
  f_e st c i j k = at_time om (INR n * dt_of g) e c i j k /\ f_h st c i j k = at_time om ((INR n + 1 / 2) * dt_of g) h c i j k.
Proof. exact cw_fdfd. Qed.
Print Assumptions C139_cw_run_is_fdfd.
(** Without sources, both backends: the resonances. *)
Theorem C139_resonance : forall g jax om e h, wf_grid g ->
  (forall c i j k, in_grid (g_shape g) i j k -> eps_t g false c i j k <> 0) ->
  faraday (g_shape g) (g_dx g) (lattice_wavenumber g om) e h ->
  ampere (g_shape g) (g_dx g) (lattice_wavenumber g om) (eps_t g false) e h (fun _ _ _ _ => C0) ->
  forall n c i j k, in_grid (g_shape g) i j k ->
  let st := free_run g jax (mkState e (at_time om (dt_of g / 2) h)) n in
  f_e st c i j k = at_time om (INR n * dt_of g) e c i j k /\ f_h st c i j k = at_time om ((INR n + 1 / 2) * dt_of g) h c i j k.
Proof. exact resonance. Qed.
Print Assumptions C139_resonance.
(** And only then: a step that turns the state by the phase factor is a solution of the frequency-domain equations. *)
Theorem C139_only_fdfd : forall g om e h src l, wf_grid g ->
  (forall c i j k, in_grid (g_shape g) i j k -> eps_t g false c i j k <> 0) -> electric l ->
  (forall c i j k, in_grid (g_shape g) i j k -> current src_e l c i j k = (- (Ci * at_time om (dt_of g / 2) src c i j k))%C) ->
  let st := step g false (mkState e (at_time om (dt_of g / 2) h)) l in
  (forall c i j k, in_grid (g_shape g) i j k -> f_e st c i j k = at_time om (dt_of g) e c i j k /\ f_h st c i j k = at_time om (3 / 2 * dt_of g) h c i j k) ->
  faraday (g_shape g) (g_dx g) (lattice_wavenumber g om) e h /\ ampere (g_shape g) (g_dx g) (lattice_wavenumber g om) (eps_t g false) e h src.
Proof. exact cw_only_fdfd. Qed.
Print Assumptions C139_only_fdfd.
(** The hypotheses can be met on every grid, for every field: at the frequency pi / dt the wave number is 2 / dt, every field x is the exact
    solution for some source, and this source is the current of a schedule. *)
Example C139_meets : forall g x, wf_grid g -> let om := PI / dt_of g in
  lattice_wavenumber g om = 2 / dt_of g /\ lattice_wavenumber g om <> 0 /\
  exists src, exact3 (at_wavenumber g (lattice_wavenumber g om)) (fun _ _ => x) src /\
  exists sch, (forall n, electric (sch n)) /\
    forall n c i j k, current src_e (sch n) c i j k = (- (Ci * at_time om ((INR n + 1 / 2) * dt_of g) src c i j k))%C.
Proof.
  intros g x W om. pose proof (dt_pos g W) as P.
  assert (E : lattice_wavenumber g om = 2 / dt_of g).
  { unfold lattice_wavenumber, om. replace (PI / dt_of g * dt_of g / 2) with (PI / 2) by (field; lra). rewrite sin_PI2. field. lra. }
  assert (N : lattice_wavenumber g om <> 0) by (rewrite E; apply Rgt_not_eq, Rdiv_lt_0_compat; lra).
  split; [exact E |]. split; [exact N |].
  destruct (any_solution (at_wavenumber g (lattice_wavenumber g om)) x N) as [src Hs]. exists src. split; [exact Hs |].
  exists (fun n => [mkSource (Some (fun c i j k => - (Ci * at_time om ((INR n + 1 / 2) * dt_of g) src c i j k))%C) None (fun _ _ _ _ => true)]).
  split; [repeat constructor |]. intros. cbn [current]. unfold masked, zero_vfld, Model_fdtd.zero_vfld. cbn [src_e src_region]. ring.
Qed.

(** C140: energy balance.  Each step adds exactly the work of its currents ... *)
Theorem C140_balance : forall g st s1 s2, (forall c i j k, in_grid (g_shape g) i j k -> eps_t g false c i j k <> 0) ->
  let st1 := step g false st s1 in let st2 := step g false st1 s2 in
  leapfrog_energy g false st1 st2 = leapfrog_energy g false st st1 + work g s1 s2 st1 st2.
Proof. intros. apply balance; auto. Qed.
Print Assumptions C140_balance.
(** ... and so for a whole run. *)
Theorem C140_balance_run : forall g st sch n, (forall c i j k, in_grid (g_shape g) i j k -> eps_t g false c i j k <> 0) ->
  let at_ k := run g false st (map sch (seq 0 k)) in
  leapfrog_energy g false (at_ n) (at_ (S n)) =
  leapfrog_energy g false (at_ 0%nat) (at_ 1%nat) + Rsum n (fun k => work g (sch k) (sch (S k)) (at_ (S k)) (at_ (S (S k)))).
Proof. intros. apply balance_run; auto. Qed.
Print Assumptions C140_balance_run.

(** C141: reciprocity of two runs from rest driven by electric currents ... *)
Theorem C141_reciprocity : forall g sa sb n, wf_grid g -> (forall c i j k, in_grid (g_shape g) i j k -> eps_t g false c i j k <> 0) ->
  Forall electric sa -> Forall electric sb -> length sa = n -> length sb = n ->
  Csum n (fun k => vpair (g_shape g) (current_of sa k) (e_after g sb (n - k))) =
  Csum n (fun k => vpair (g_shape g) (current_of sb k) (e_after g sa (n - k))).
Proof. intros. apply reciprocity; auto. Qed.
Print Assumptions C141_reciprocity.
(** ... so emitter and receiver can be exchanged, whatever the waveform. *)
Theorem C141_dipoles : forall g c p d q w, wf_grid g -> (forall c i j k, in_grid (g_shape g) i j k -> eps_t g false c i j k <> 0) ->
  cell_in (g_shape g) p -> cell_in (g_shape g) q ->
  at_cell (f_e (run g false zero_state (dipole_run c p w))) d q = at_cell (f_e (run g false zero_state (dipole_run d q w))) c p.
Proof. intros. apply dipoles; auto. Qed.
Print Assumptions C141_dipoles.
(** With jax, whose sources overwrite the field (C33), not: three cells, three steps. *)
Theorem C141_jax_refuted : exists g p q w, wf_grid g /\ (forall i j k, in_grid (g_shape g) i j k -> 1 <= g_eps g i j k) /\
  cell_in (g_shape g) p /\ cell_in (g_shape g) q /\
  at_cell (f_e (run g true zero_state (dipole_run AZ p w))) AZ q <> at_cell (f_e (run g true zero_state (dipole_run AZ q w))) AZ p.
Proof. exact jax_not_reciprocal. Qed.
Print Assumptions C141_jax_refuted.
Example C141_meets : wf_grid g3 /\ (forall c i j k, in_grid (g_shape g3) i j k -> eps_t g3 false c i j k <> 0) /\
  cell_in (g_shape g3) (0, 0, 0)%nat /\ cell_in (g_shape g3) (1, 0, 0)%nat.
Proof.
  split; [exact g3_wf |]. split; [| split; unfold cell_in, in_grid; cbn; lia].
  intros c i j k H E. pose proof (yee_avg_bounds (g_shape g3) (g_eps g3) 1 3 ltac:(intros i' j' k' _; cbn; destruct (Nat.eqb i' 2); lra) c i j k H) as B.
  unfold eps_t in E. rewrite E in B. lra.
Qed.
