(** C159: the simulation converges to the solution of Maxwell's equations.  Theorems only; proofs are in Proof_conv.v to Proof_conv4.v
    and Proof_duhamel.v. *)
From Coq Require Import Reals List Arith Lra Lia.
From Verif Require Import Cx Arr Model_yee Spec_yee Model_fdtd Spec_fdtd Spec_conv Proof_conv3 Proof_conv4.
Import ListNotations.
Local Open Scope R_scope.

(** Let E, H solve Maxwell's equations with the currents J, K and the permittivity of the grid, with third derivatives at most M, and let the
    sources inject J and K.  For a permittivity between 1 and emax, from any starting state, after N steps (time N dt) the root mean square
    error is at most 4(N+1) times the initial error plus (N+1) (N dt) (sqrt emax + 3)/4 M Dx^2, Dx being the largest cell size. *)
Theorem C159_convergence : forall g E H J K DE DH TE TH sch M Dx emax st0 N, wf_grid g ->
  (forall i j k, in_grid (g_shape g) i j k -> 1 <= g_eps g i j k <= emax) ->
  (forall a, is_active g a = true -> g_spacing g a <= Dx) -> fits_grid g E -> fits_grid g H -> derivatives M E DE TE -> derivatives M H DH TH ->
  maxwell g DE DH TE TH J K -> drives g sch J K ->
  rms g (gap (run g false st0 (map sch (seq 0 N))) (exact_state g E H N)) <=
  4 * (INR N + 1) * rms g (gap st0 (exact_state g E H 0)) + (INR N + 1) * (INR N * dt_of g) * ((sqrt emax + 3) / 4) * M * Dx ^ 2.
Proof. exact convergence_any. Qed.
Print Assumptions C159_convergence.

(** For a permittivity of at least kap > 1, the error at a fixed time N dt is of second order in the cell size, and an initial error is
    amplified by a factor that does not depend on the number of steps. *)
Theorem C159_second_order : forall g E H J K DE DH TE TH sch M Dx kap emax st0 N, wf_grid g -> 1 < kap ->
  (forall i j k, in_grid (g_shape g) i j k -> kap <= g_eps g i j k <= emax) ->
  (forall a, is_active g a = true -> g_spacing g a <= Dx) -> fits_grid g E -> fits_grid g H -> derivatives M E DE TE -> derivatives M H DH TH ->
  maxwell g DE DH TE TH J K -> drives g sch J K ->
  rms g (gap (run g false st0 (map sch (seq 0 N))) (exact_state g E H N)) <=
  sqrt (2 / (1 - / sqrt kap)) * (rms g (gap st0 (exact_state g E H 0)) + INR N * dt_of g * ((sqrt emax + 3) / 8) * M * Dx ^ 2).
Proof. exact convergence. Qed.
Print Assumptions C159_second_order.

(** Without currents the same holds with use_jax set. *)
Theorem C159_free : forall g jax E H DE DH TE TH M Dx kap emax st0 N, wf_grid g -> 1 < kap ->
  (forall i j k, in_grid (g_shape g) i j k -> kap <= g_eps g i j k <= emax) ->
  (forall a, is_active g a = true -> g_spacing g a <= Dx) -> fits_grid g E -> fits_grid g H -> derivatives M E DE TE -> derivatives M H DH TH ->
  maxwell g DE DH TE TH (fun _ _ _ => 0) (fun _ _ _ => 0) ->
  rms g (gap (free_run g jax st0 N) (exact_state g E H N)) <=
  sqrt (2 / (1 - / sqrt kap)) * (rms g (gap st0 (exact_state g E H 0)) + INR N * dt_of g * ((sqrt emax + 3) / 8) * M * Dx ^ 2).
Proof. exact convergence_free. Qed.
Print Assumptions C159_free.

(** Non-vacuity: a wave E_z = cos(k(x - t/2)), H_y = -2 cos(k(x - t/2)) with one period on n cells of permittivity 4, for every n and
    every cell size d: the error of a run started on the wave is at most 5/2 k^3 (N dt) d^2. *)
Example C159_wave : forall n d N, (1 <= n)%nat -> 0 < d ->
  rms (g4 n d) (gap (run (g4 n d) false (exact_state (g4 n d) (E4 n d) (H4 n d) 0) (map (fun _ => []) (seq 0 N))) (exact_state (g4 n d) (E4 n d) (H4 n d) N)) <=
  5 / 2 * (k4 n d * k4 n d * k4 n d) * (INR N * dt_of (g4 n d)) * d ^ 2.
Proof.
  intros n d N Hn Hd.
  pose proof (C159_second_order (g4 n d) (E4 n d) (H4 n d) _ _ (DE4 n d) (DH4 n d) (TE4 n d) (TH4 n d) (fun _ => []) (M4 n d) d 4 4
    (exact_state (g4 n d) (E4 n d) (H4 n d) 0) N (g4_wf n d Hn Hd) ltac:(lra) (g4_eps n d) (fun a _ => Rle_refl d)
    (g4_fits n d Hn Hd _ (or_introl eq_refl)) (g4_fits n d Hn Hd _ (or_intror eq_refl)) (der_E4 n d Hn Hd) (der_H4 n d Hn Hd) (g4_maxwell n d) (g4_drives n d)) as B.
  rewrite rms_self in B by (apply g4_wf; assumption).
  replace (sqrt 4) with 2 in B by (symmetry; replace 4 with (2 * 2) by ring; apply sqrt_square; lra).
  replace (2 / (1 - / 2)) with (2 * 2) in B by field. rewrite sqrt_square in B by lra. unfold M4 in B. lra.
Qed.
