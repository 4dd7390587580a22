(** C30 - C35: time stepping (simphox/fdtd.py). *)
From Coq Require Import Reals List Arith.
From Verif Require Import Cx Arr Model_yee Spec_yee Model_fdtd Spec_fdtd Proof_fdtd Proof_fdtd2 Proof_energy3 Proof_fdtd3.
Import ListNotations.
Local Open Scope R_scope.

(** C30: superposition over a whole run, numpy and jax, any schedule of sources. *)
Theorem C30_superposition : forall g jax al be l1 l2 l3, lin_schedule al be l1 l2 l3 -> forall s1 s2,
  run g jax (lin_state al be s1 s2) l3 = lin_state al be (run g jax s1 l1) (run g jax s2 l2).
Proof. exact run_lin. Qed.
Print Assumptions C30_superposition.
Theorem C30_zero_state_stays : forall g jax n, free_run g jax zero_state n = zero_state.
Proof. exact zero_fix_n. Qed.
Print Assumptions C30_zero_state_stays.
Example C30_nonvacuous : lin_sources C1 Ci [src1] [src1] [mkSource (Some (fun _ _ _ _ => C1 + Ci)%C) None (src_region src1)].
Proof. exact linear_instance. Qed.

(** C31: div D and div B are constant in time without sources. *)
Theorem C31_charge_conserved : forall g jax st n i j k,
  (forall c i j k, in_grid (g_shape g) i j k -> eps_t g jax c i j k <> 0) -> in_grid (g_shape g) i j k ->
  div_D g jax (free_run g jax st n) i j k = div_D g jax st i j k /\
  div_B g (free_run g jax st n) i j k = div_B g st i j k.
Proof. exact charge_const. Qed.
Print Assumptions C31_charge_conserved.
(** With sources (numpy backend): the continuity equation. *)
Theorem C31_continuity : forall g st l i j k,
  (forall c i j k, in_grid (g_shape g) i j k -> eps_t g false c i j k <> 0) -> in_grid (g_shape g) i j k ->
  div_D g false (step g false st l) i j k =
    (div_D g false st i j k - RtoC (dt_of g) * divergence (diff_fn (g_shape g) (g_dx g) true) (current src_e l) i j k)%C /\
  div_B g (step g false st l) i j k =
    (div_B g st i j k - RtoC (dt_of g) * divergence (diff_fn (g_shape g) (g_dx g) false) (current src_h l) i j k)%C.
Proof. exact (fun g st l i j k H1 H2 => conj (continuity_D g st l i j k H1 H2) (continuity_B g st l i j k H2)). Qed.
Print Assumptions C31_continuity.

(** C32: the leapfrog energy is the same after any number of steps; it is nonnegative at the built-in time step when
    eps >= 1; hence the fields grow at most linearly, and stay bounded when eps >= kap > 1. *)
Theorem C32_energy_conserved : forall g jax st n, (forall c i j k, in_grid (g_shape g) i j k -> eps_t g jax c i j k <> 0) ->
  leapfrog_energy g jax (free_run g jax st n) (free_run g jax st (S n)) = leapfrog_energy g jax st (step g jax st []).
Proof. exact energy_conserved. Qed.
Print Assumptions C32_energy_conserved.
Theorem C32_energy_nonnegative : forall g jax st n, wf_grid g ->
  (forall i j k, in_grid (g_shape g) i j k -> 1 <= g_eps g i j k) ->
  0 <= leapfrog_energy g jax (free_run g jax st n) (free_run g jax st (S n)).
Proof. exact energy_nonnegative. Qed.
Print Assumptions C32_energy_nonnegative.
Theorem C32_no_exponential_growth : forall g jax st n, wf_grid g ->
  (forall i j k, in_grid (g_shape g) i j k -> 1 <= g_eps g i j k) ->
  field_energy g jax (free_run g jax st n) <= 16 * ((INR n + 1) * (INR n + 1)) * field_energy g jax st.
Proof. exact growth_bound. Qed.
Print Assumptions C32_no_exponential_growth.
Theorem C32_bounded_above_vacuum : forall g jax kap st n, wf_grid g -> 1 < kap ->
  (forall i j k, in_grid (g_shape g) i j k -> kap <= g_eps g i j k) ->
  field_energy g jax (free_run g jax st n) <= 2 / (1 - / sqrt kap) * field_energy g jax st.
Proof. exact uniform_bound. Qed.
Print Assumptions C32_bounded_above_vacuum.
(** The linear growth is real: dt sits exactly on the stability limit, and in vacuum some state's energy is unbounded. *)
Theorem C32_bounded_in_vacuum_refuted : exists g st, wf_grid g /\ (forall i j k, in_grid (g_shape g) i j k -> g_eps g i j k = 1) /\
  forall jax M, exists n, M < field_energy g jax (free_run g jax st n).
Proof. exact unbounded_example. Qed.
Print Assumptions C32_bounded_in_vacuum_refuted.
Example C32_nonvacuous : wf_grid g1 /\ (forall i j k, in_grid (g_shape g1) i j k -> 1 <= g_eps g1 i j k).
Proof. exact (conj wf_g1 g1_eps). Qed.

(** C33: without sources the two backends agree at every step ... *)
Theorem C33_backends_agree_without_source_partial : forall g st n, free_run g true st n = free_run g false st n.
Proof. exact free_run_jax. Qed.
Print Assumptions C33_backends_agree_without_source_partial.
(** ... but with a source cell they agree exactly when the field there would otherwise be zero: jax overwrites. *)
Theorem C33_source_cell : forall g st src v c i j k, src_e src = Some v -> src_region src c i j k = true ->
  (step_e g true st [src] c i j k = step_e g false st [src] c i j k <-> step_e g false st [] c i j k = C0).
Proof. exact source_e_differs. Qed.
Print Assumptions C33_source_cell.
Theorem C33_same_source_refuted : exists g st src c i j k, wf_grid g /\ in_grid (g_shape g) i j k /\
  f_e (step g true st [src]) c i j k <> f_e (step g false st [src]) c i j k.
Proof. exact source_refuted. Qed.
Print Assumptions C33_same_source_refuted.

(** C34: jax (no PML): the caller's arrays are unchanged and the synchronised H is the mean of old and new. *)
Theorem C34_jax_keeps_state_partial : forall g hp fe fh st srcs,
  fe <> fh -> fe <> r_e st -> fe <> r_h st -> fh <> r_e st -> fh <> r_h st ->
  let r := step_jax_heap g hp fe fh st srcs in
  let new := step g true (mkState (hp (r_e st)) (hp (r_h st))) srcs in
  fst r (r_e st) = hp (r_e st) /\ fst r (r_h st) = hp (r_h st) /\
  fst r (r_e (snd r)) = f_e new /\ fst r (r_h (snd r)) = f_h new.
Proof. exact jax_heap_contents. Qed.
Print Assumptions C34_jax_keeps_state_partial.
(** numpy: the caller's arrays are overwritten by every step, and run_cw_port's "synchronised" H is simply the new H. *)
Theorem C34_numpy_overwrites : forall g hp st srcs, r_e st <> r_h st ->
  let hp' := fst (step_np_heap g hp st srcs) in
  let new := step g false (mkState (hp (r_e st)) (hp (r_h st))) srcs in
  snd (step_np_heap g hp st srcs) = st /\ hp' (r_e st) = f_e new /\ hp' (r_h st) = f_h new.
Proof. exact np_heap_contents. Qed.
Print Assumptions C34_numpy_overwrites.
Theorem C34_numpy_sync_is_new_h : forall g hp st srcs c i j k, r_e st <> r_h st ->
  let r := step_np_heap g hp st srcs in
  sync_h (fst r) st (snd r) c i j k = f_h (step g false (mkState (hp (r_e st)) (hp (r_h st))) srcs) c i j k.
Proof. exact np_sync_h. Qed.
Print Assumptions C34_numpy_sync_is_new_h.
Theorem C34_jax_sync_is_mean : forall g hp fe fh st srcs c i j k,
  fe <> fh -> fe <> r_e st -> fe <> r_h st -> fh <> r_e st -> fh <> r_h st ->
  let r := step_jax_heap g hp fe fh st srcs in
  sync_h (fst r) st (snd r) c i j k =
  ((hp (r_h st) c i j k + f_h (step g true (mkState (hp (r_e st)) (hp (r_h st))) srcs) c i j k) / RtoC 2)%C.
Proof. exact jax_sync_h. Qed.
Print Assumptions C34_jax_sync_is_mean.
Theorem C34_numpy_state_kept_refuted : exists g hp st, wf_grid g /\ r_e st <> r_h st /\
  fst (step_np_heap g hp st []) (r_h st) <> hp (r_h st) /\ fst (step_np_heap g hp st []) (r_e st) <> hp (r_e st).
Proof. exact np_aliasing. Qed.
Print Assumptions C34_numpy_state_kept_refuted.

(** C35: from zero memory the first two steps follow the documented recursion ... *)
Theorem C35_first_two_steps_partial : forall df b fs, (1 <= length fs <= 2)%nat -> forall c i j k,
  snd (pml_run df b fs zero_psi zero_vfld) c i j k = doc_corr df b fs c i j k.
Proof. exact pml_two_steps. Qed.
Print Assumptions C35_first_two_steps_partial.
(** ... and no later one under a constant forcing: the code stops at two terms of the geometric sum. *)
Theorem C35_constant_forcing : forall df (b : axis -> fld) f n br d i j k, (2 <= n)%nat ->
  b AY i j k = RtoC br -> df (f AZ) AY i j k = RtoC d -> df (f AY) AZ i j k = C0 ->
  snd (pml_run df b (repeat f n) zero_psi zero_vfld) AX i j k = RtoC (d * (1 + br)) /\
  doc_corr df b (repeat f n) AX i j k = RtoC (d * Rsum n (fun m => br ^ m)).
Proof. exact pml_const_value. Qed.
Print Assumptions C35_constant_forcing.
Theorem C35_memory_refuted : forall df (b : axis -> fld) f n br d i j k, (3 <= n)%nat -> 0 < br -> d <> 0 ->
  b AY i j k = RtoC br -> df (f AZ) AY i j k = RtoC d -> df (f AY) AZ i j k = C0 ->
  snd (pml_run df b (repeat f n) zero_psi zero_vfld) AX i j k <> doc_corr df b (repeat f n) AX i j k.
Proof. exact pml_refute. Qed.
Print Assumptions C35_memory_refuted.
Example C35_nonvacuous : exists (df : fld -> axis -> fld) (b : axis -> fld) (f : vfld) br d i j k, 0 < br < 1 /\ d <> 0 /\
  b AY i j k = RtoC br /\ df (f AZ) AY i j k = RtoC d /\ df (f AY) AZ i j k = C0.
Proof. exact pml_instance. Qed.
