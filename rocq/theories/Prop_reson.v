(** C179: when a simulation without losses has a solution. *)
From Coq Require Import Reals Lra Lia List Arith.
From Verif Require Import Cx Arr Model_coupling Model_yee Spec_yee Model_fdfd Spec_fdfd Model_fdtd Spec_fdtd Model_fdfdc Spec_fdfdc Spec_disp Spec_conv Spec_fdfdcv Spec_reson Proof_fdfdc3 Proof_reson3.
Local Open Scope R_scope.

(** A 2-D simulation with an out-of-plane electric field of a box filled with one material has a solution for every source exactly when no wave
    of the grid that fits the box has the wave number of the material. *)
Theorem C179_te : forall d w eps, filled_box d w eps -> cf_shape d AZ = 1%nat ->
  ((forall src, exists solver, exact2c d (mat_ez_c d) solver src) <-> forall th, fits (cf_shape d) (cf_bloch d) th -> detuning d w eps th <> C0).
Proof. exact te_iff. Qed.
Print Assumptions C179_te.
Theorem C179_tm : forall d w eps, filled_box d w eps -> cf_shape d AZ = 1%nat -> eps <> C0 ->
  ((forall src, exists solver, exact2c d (mat_hz_c d) solver src) <-> forall th, fits (cf_shape d) (cf_bloch d) th -> detuning d w eps th <> C0).
Proof. exact tm_iff. Qed.
Print Assumptions C179_tm.
(** In three dimensions the permittivity must not be zero either. *)
Theorem C179_3d : forall d w eps, filled_box d w eps ->
  ((forall src, exists solver, exact3c d solver src) <-> eps <> C0 /\ forall th, fits (cf_shape d) (cf_bloch d) th -> detuning d w eps th <> C0).
Proof. exact iff3. Qed.
Print Assumptions C179_3d.
(** Then there is one solution only. *)
Theorem C179_unique : forall d w eps, filled_box d w eps -> eps <> C0 -> (forall th, fits (cf_shape d) (cf_bloch d) th -> detuning d w eps th <> C0) ->
  (forall src solver solver', exact3c d solver src -> exact3c d solver' src ->
     forall c, same_on (cf_shape d) (fst (solve3c d solver src) c) (fst (solve3c d solver' src) c)) /\
  (cf_shape d AZ = 1%nat -> forall src solver solver', exact2c d (mat_ez_c d) solver src -> exact2c d (mat_ez_c d) solver' src ->
     same_on (cf_shape d) (fst (solve2_te_c d solver src) AZ) (fst (solve2_te_c d solver' src) AZ)) /\
  (cf_shape d AZ = 1%nat -> forall src solver solver', exact2c d (mat_hz_c d) solver src -> exact2c d (mat_hz_c d) solver' src ->
     same_on (cf_shape d) (snd (solve2_tm_c d solver src) AZ) (snd (solve2_tm_c d solver' src) AZ)).
Proof.
  intros d w eps HB He H. split; [| split].
  - intros src s1 s2 X Y. apply (unique3 d w eps HB He H src); apply exact3c_wave; assumption.
  - intros Hz src s1 s2 X Y. apply (te_unique d w eps HB Hz H src); apply exact_te_wave; assumption.
  - intros Hz src s1 s2 X Y. apply (tm_unique d w eps HB Hz He H src); apply exact_tm_wave; assumption.
Qed.
Print Assumptions C179_unique.
(** And it is bounded by the source over the smallest distance to a resonance: |E|_2 <= k0 |src|_2 / g (in squares). *)
Theorem C179_bounded : forall d w eps g, filled_box d w eps -> eps <> C0 -> 0 <= g -> (forall th, fits (cf_shape d) (cf_bloch d) th -> g <= Cabs (detuning d w eps th)) ->
  (g <= cf_k0 d * cf_k0 d * Cabs eps -> forall src solver, exact3c d solver src ->
     g * g * vpower2 (cf_shape d) (fst (solve3c d solver src)) <= cf_k0 d * cf_k0 d * vpower2 (cf_shape d) src) /\
  (cf_shape d AZ = 1%nat -> forall src solver, exact2c d (mat_ez_c d) solver src ->
     g * g * power2 (cf_shape d) (fst (solve2_te_c d solver src) AZ) <= cf_k0 d * cf_k0 d * power2 (cf_shape d) src) /\
  (cf_shape d AZ = 1%nat -> forall src solver, exact2c d (mat_hz_c d) solver src ->
     g * g * power2 (cf_shape d) (snd (solve2_tm_c d solver src) AZ) <= Cn2 eps * (cf_k0 d * cf_k0 d) * power2 (cf_shape d) src).
Proof.
  intros d w eps g HB He Hg H. split; [| split].
  - intros G0 src sv X. apply (gap3 d w eps HB g Hg G0 H src). apply exact3c_wave. exact X.
  - intros Hz src sv X. apply (te_gap d w eps HB Hz g Hg H src). apply exact_te_wave. exact X.
  - intros Hz src sv X. apply (tm_gap d w eps HB Hz He g Hg H src). apply exact_tm_wave. exact X.
Qed.
Print Assumptions C179_bounded.
(** Without losses there are such resonances on every grid: vacuum, n >= 2 cells of any size, wave number 2 sin(pi/n) / cell size. *)
Theorem C179_resonance : forall n u, (2 <= n)%nat -> 0 < u -> let d := fdfd_on (row n u) (2 * sin (PI / INR n) / u) (fun _ _ _ => C1) in
  0 < cf_k0 d /\ (~ forall src, exists solver, exact2c d (mat_ez_c d) solver src) /\ (~ forall src, exists solver, exact2c d (mat_hz_c d) solver src) /\
  (~ forall src, exists solver, exact3c d solver src).
Proof. exact row_no_solution. Qed.
Print Assumptions C179_resonance.
(** Non-vacuity: with the wave number 3 / cell size the same row is a filled box at least 5 / cell size^2 away from every resonance. *)
Example C179_nonvacuous : forall n u, (2 <= n)%nat -> 0 < u -> let d := fdfd_on (row n u) (3 / u) (fun _ _ _ => C1) in
  filled_box d (width (row n u)) C1 /\ 0 < 5 / (u * u) /\ (forall th, fits (cf_shape d) (cf_bloch d) th -> 5 / (u * u) <= Cabs (detuning d (width (row n u)) C1 th)) /\
  exists th, fits (cf_shape d) (cf_bloch d) th.
Proof. exact row_filled. Qed.
