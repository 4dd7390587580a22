(** C180: lossless materials have finitely many resonances. *)
From Coq Require Import Reals Lra Lia List Arith.
From Verif Require Import Cx Arr Model_coupling Model_yee Spec_yee Model_fdfd Spec_fdfd Model_fdtd Spec_fdtd Model_fdfdc Spec_fdfdc Spec_conv Spec_fdfdcv Spec_reson2 Proof_reson3 Proof_reson4.
Local Open Scope R_scope.

(** Whatever the (real, positive) permittivity, there are at most as many resonances as unknowns: at every other wave number the simulation has
    exactly one solution for every source, and at each of them some source has none. *)
Theorem C180_te : forall d, lossless d -> exists ks : list R, (length ks <= npix (cf_shape d))%nat /\ forall k, 0 < k -> let dk := at_wave_number d k in
  (In k ks <-> exists src, ~ exists solver, exact2c dk (mat_ez_c dk) solver src) /\
  (~ In k ks -> forall src solver solver', exact2c dk (mat_ez_c dk) solver src -> exact2c dk (mat_ez_c dk) solver' src ->
     same_on (cf_shape d) (fst (solve2_te_c dk solver src) AZ) (fst (solve2_te_c dk solver' src) AZ)).
Proof. exact te_finite. Qed.
Print Assumptions C180_te.
Theorem C180_tm : forall d, lossless d -> exists ks : list R, (length ks <= npix (cf_shape d))%nat /\ forall k, 0 < k -> let dk := at_wave_number d k in
  (In k ks <-> exists src, ~ exists solver, exact2c dk (mat_hz_c dk) solver src) /\
  (~ In k ks -> forall src solver solver', exact2c dk (mat_hz_c dk) solver src -> exact2c dk (mat_hz_c dk) solver' src ->
     same_on (cf_shape d) (snd (solve2_tm_c dk solver src) AZ) (snd (solve2_tm_c dk solver' src) AZ)).
Proof. exact tm_finite. Qed.
Print Assumptions C180_tm.
Theorem C180_3d : forall d, lossless d -> exists ks : list R, (length ks <= 3 * npix (cf_shape d))%nat /\ forall k, 0 < k -> let dk := at_wave_number d k in
  (In k ks <-> exists src, ~ exists solver, exact3c dk solver src) /\
  (~ In k ks -> forall src solver solver', exact3c dk solver src -> exact3c dk solver' src ->
     forall c, same_on (cf_shape d) (fst (solve3c dk solver src) c) (fst (solve3c dk solver' src) c)).
Proof. exact finite3. Qed.
Print Assumptions C180_3d.
(** Non-vacuity: rows of cells with any positive real permittivity; for vacuum and n >= 2 cells the list is not empty. *)
Example C180_nonvacuous : forall n u (x : nat -> R), (2 <= n)%nat -> 0 < u -> (forall i, 0 < x i) ->
  lossless (fdfd_on (row n u) 1 (fun i _ _ => RtoC (x i))) /\
  exists k, 0 < k /\ ~ forall src, exists solver, exact3c (at_wave_number (fdfd_on (row n u) 1 (fun _ _ _ => C1)) k) solver src.
Proof.
  intros n u x Hn Hu Hx. split; [split; [exists (width (row n u)); split; reflexivity |] |].
  - intros i j k _. cbn [fdfd_on cf_eps re im RtoC]. split; [reflexivity | apply Hx].
  - exists (2 * sin (PI / INR n) / u). destruct (row_no_solution n u Hn Hu) as (A & _ & _ & B). split; [exact A | exact B].
Qed.
