(** C160: rounding errors of the FDTD.  Theorems only; proofs are in Proof_fdtdfl.v to Proof_fdtdfl6.v. *)
From Coq Require Import Reals List Arith ZArith Lra Lia.
From Verif Require Import Cx Arr Model_yee Spec_yee Model_fdtd Spec_fdtd Spec_conv Model_fdtdfl Spec_fdtdfl Proof_conv4 Proof_fdtdfl5 Proof_fdtdfl6.
Import ListNotations.
Local Open Scope R_scope.

(** If each machine operation is off by at most the fraction d of its result plus u, the machine's time step and permittivities are off by
    at most the fraction e, and the permittivity is between kap > 1 and emax, then after N steps the computed fields differ from the exact
    ones (in root mean square) by at most N times a constant times d + e times the size of the fields and of the sources' contributions: the
    rounding errors of the single steps add up, they do not compound.  B does not depend on the grid, the number of cells or N. *)
Theorem C160_rounding : forall g ar mc d u e lo hi kap emax st0 sch N X P, wf_grid g -> 1 < kap ->
  (forall i j k, in_grid (g_shape g) i j k -> kap <= g_eps g i j k <= emax) ->
  farith_ok d u lo hi ar -> const_ok e lo hi g mc -> d + e <= 1 / 100 -> (forall n, (length (sch n) <= 1)%nat) ->
  (forall n, (n < N)%nat -> rms g (run g false st0 (map sch (seq 0 n))) <= X /\ rms g (push g (sch n)) <= P) ->
  let B := sqrt (2 / (1 - / sqrt kap)) in 680 * (B * INR N) * (d + e) <= 1 ->
  rms g (gap (run_fl ar g mc st0 (map sch (seq 0 N))) (run g false st0 (map sch (seq 0 N)))) <=
  2 * B * INR N * (340 * (d + e) * (X + P) + 72 * u * (1 + dt_of g) * sqrt emax).
Proof. exact fl_uniform. Qed.
Print Assumptions C160_rounding.

(** With vacuum (permittivity 1) allowed, they grow at most with the square of the number of steps. *)
Theorem C160_vacuum : forall g ar mc d u e lo hi emax st0 sch N X P, wf_grid g ->
  (forall i j k, in_grid (g_shape g) i j k -> 1 <= g_eps g i j k <= emax) ->
  farith_ok d u lo hi ar -> const_ok e lo hi g mc -> d + e <= 1 / 100 -> (forall n, (length (sch n) <= 1)%nat) ->
  (forall n, (n < N)%nat -> rms g (run g false st0 (map sch (seq 0 n))) <= X /\ rms g (push g (sch n)) <= P) ->
  1360 * (INR N * (INR N + 1)) * (d + e) <= 1 ->
  rms g (gap (run_fl ar g mc st0 (map sch (seq 0 N))) (run g false st0 (map sch (seq 0 N)))) <=
  4 * INR N * (INR N + 1) * (340 * (d + e) * (X + P) + 72 * u * (1 + dt_of g) * sqrt emax).
Proof. exact fl_any. Qed.
Print Assumptions C160_vacuum.

(** The computed fields against the solution of Maxwell's equations (see C159): discretization and rounding errors together. *)
Theorem C160_total : forall g ar mc d u e lo hi kap emax E H J K DE DH TE TH sch M Dx st0 N X P, wf_grid g -> 1 < kap ->
  (forall i j k, in_grid (g_shape g) i j k -> kap <= g_eps g i j k <= emax) ->
  farith_ok d u lo hi ar -> const_ok e lo hi g mc -> d + e <= 1 / 100 -> (forall n, (length (sch n) <= 1)%nat) ->
  (forall n, (n < N)%nat -> rms g (run g false st0 (map sch (seq 0 n))) <= X /\ rms g (push g (sch n)) <= P) ->
  (forall a, is_active g a = true -> g_spacing g a <= Dx) -> fits_grid g E -> fits_grid g H -> derivatives M E DE TE -> derivatives M H DH TH ->
  maxwell g DE DH TE TH J K -> drives g sch J K ->
  let B := sqrt (2 / (1 - / sqrt kap)) in 680 * (B * INR N) * (d + e) <= 1 ->
  rms g (gap (run_fl ar g mc st0 (map sch (seq 0 N))) (exact_state g E H N)) <=
  B * (rms g (gap st0 (exact_state g E H 0)) + INR N * dt_of g * ((sqrt emax + 3) / 8) * M * Dx ^ 2) +
  2 * B * INR N * (340 * (d + e) * (X + P) + 72 * u * (1 + dt_of g) * sqrt emax).
Proof. exact fl_total. Qed.
Print Assumptions C160_total.

(** numpy's complex128 arithmetic meets the hypothesis, and so do the time step and the permittivities the constructor computes. *)
Theorem C160_complex128 : farith_ok (3 / 2 ^ 53) (powerRZ 2 (-1074)) (powerRZ 2 (-1000)) (powerRZ 2 1000) b64_farith.
Proof. exact ok_fl64. Qed.
Print Assumptions C160_complex128.
Theorem C160_constants : forall g emax, wf_grid g -> (forall i j k, in_grid (g_shape g) i j k -> 1 <= g_eps g i j k <= emax) -> emax <= powerRZ 2 900 ->
  (forall a, is_active g a = true -> powerRZ 2 (-400) <= g_spacing g a <= powerRZ 2 400) ->
  const_ok (8 / 2 ^ 53) (powerRZ 2 (-1000)) (powerRZ 2 1000) g (const64 g).
Proof. exact const64_ok. Qed.
Print Assumptions C160_constants.

(** So in double precision, without sources, the error after N steps is at most about 2^-40 B^2 N of the size of the initial fields. *)
Theorem C160_binary64 : forall g kap emax st0 N, wf_grid g -> 1 < kap -> (forall i j k, in_grid (g_shape g) i j k -> kap <= g_eps g i j k <= emax) -> emax <= powerRZ 2 900 ->
  (forall a, is_active g a = true -> powerRZ 2 (-400) <= g_spacing g a <= powerRZ 2 400) ->
  let B := sqrt (2 / (1 - / sqrt kap)) in 7480 / 2 ^ 53 * (B * INR N) <= 1 ->
  rms g (gap (run_fl b64_farith g (const64 g) st0 (repeat [] N)) (free_run g false st0 N)) <=
  2 * B * INR N * (3740 / 2 ^ 53 * (B * rms g st0) + 72 * powerRZ 2 (-1074) * (1 + dt_of g) * sqrt emax).
Proof. exact fl_binary64. Qed.
Print Assumptions C160_binary64.

(** With exact arithmetic the model with rounding is the model of the other theorems. *)
Theorem C160_exact : forall g l st, run_fl exact_farith g (exact_const g) st l = run g false st l.
Proof. exact run_exact. Qed.
Print Assumptions C160_exact.

(** Non-vacuity: n cells of permittivity 4 and any width d between 2^-400 and 2^400, any initial fields, up to 2^39 steps. *)
Example C160_wave : forall n d N st0, (1 <= n)%nat -> powerRZ 2 (-400) <= d <= powerRZ 2 400 -> INR N <= 2 ^ 39 ->
  rms (g4 n d) (gap (run_fl b64_farith (g4 n d) (const64 (g4 n d)) st0 (repeat [] N)) (free_run (g4 n d) false st0 N)) <=
  4 * INR N * (7480 / 2 ^ 53 * rms (g4 n d) st0 + 144 * powerRZ 2 (-1074) * (1 + dt_of (g4 n d))).
Proof.
  intros n d N st0 Hn Hd HN. assert (D : 0 < d) by (assert (0 < powerRZ 2 (-400)) by (apply powerRZ_lt; lra); lra).
  assert (S4 : sqrt 4 = 2) by (replace 4 with (2 * 2) by ring; apply sqrt_square; lra).
  assert (B4 : sqrt (2 / (1 - / sqrt 4)) = 2) by (rewrite S4; replace (2 / (1 - / 2)) with (2 * 2) by field; apply sqrt_square; lra).
  pose proof (C160_binary64 (g4 n d) 4 4 st0 N (g4_wf n d Hn D) ltac:(lra) (g4_eps n d)) as R. cbv zeta in R. rewrite B4, S4 in R.
  unfold Rdiv in R |- *. set (w := powerRZ 2 (-1074)) in *. set (v := / 2 ^ 53) in *. eapply Rle_trans; [apply R | right; ring].
  - apply Rle_trans with (powerRZ 2 2); [change (powerRZ 2 2) with (2 ^ 2); lra | apply pw; lia].
  - intros a _. exact Hd.
  - unfold v. apply Rle_trans with (7480 / 2 ^ 53 * (2 * 2 ^ 39)); [apply Rmult_le_compat_l; lra | lra].
Qed.
