(** C164: frequency-domain simulations of absorbing (or amplifying) materials. *)
From Coq Require Import Reals List Arith ZArith Lra Lia.
From Verif Require Import Cx Arr Model_coupling Model_yee Spec_yee Model_fdfd Spec_fdfd Spec_fdtd Model_fdfdc Spec_fdfdc Proof_fdfdc Proof_fdfdc2 Proof_fdfdc3 Proof_fdfdc4.
Local Open Scope R_scope.

(** What the matrices say, for every grid, PML, Bloch phase and complex permittivity: the solver's answer is exact if and only if the returned
    field satisfies the wave equation with the permittivity averaged over the cells each component touches. *)
Theorem C164_equations : forall d,
  (forall solver src, exact3c d solver src <-> wave3 d src (fst (solve3c d solver src))) /\
  (forall solver src, exact2c d (mat_ez_c d) solver src <-> wave_te d src (fst (solve2_te_c d solver src) AZ)) /\
  (forall solver src, exact2c d (mat_hz_c d) solver src <-> wave_tm d src (snd (solve2_tm_c d solver src) AZ)).
Proof. intros d. split; [exact (exact3c_wave d) | split; [exact (exact_te_wave d) | exact (exact_tm_wave d)]]. Qed.
Print Assumptions C164_equations.
(** The returned pair of fields satisfies Maxwell's equations (3-D, and 2-D with an out-of-plane electric field); PML allowed. *)
Theorem C164_maxwell : forall d, cf_bloch d = (fun _ => C1) -> cf_k0 d <> 0 ->
  (forall solver src, exact3c d solver src -> let (e, h) := solve3c d solver src in
     faraday (cf_shape d) (cf_dxf d) (cf_k0 d) e h /\ ampere_c d e h src) /\
  (cf_shape d AZ = 1%nat -> forall solver src, exact2c d (mat_ez_c d) solver src -> let (e, h) := solve2_te_c d solver src in
     faraday (cf_shape d) (cf_dxf d) (cf_k0 d) e h /\ ampere_c d e h (only_z src)) /\
  (forall solver src, let (e, h) := solve2_tm_c d solver src in forall c i j k, in_grid (cf_shape d) i j k -> eps_at (cf_shape d) (cf_eps d) c i j k <> C0 ->
     curl_of (bwd (cf_shape d) (cf_dxb d)) h c i j k = (Ci * RtoC (cf_k0 d) * eps_at (cf_shape d) (cf_eps d) c i j k * e c i j k)%C).
Proof.
  intros d Hb Hk. split; [| split].
  - intros solver src. exact (maxwell3 d solver src Hb Hk).
  - intros Hz solver src. exact (maxwell_te d solver src Hb Hk Hz).
  - intros solver src. exact (tm_ampere_c d solver src Hk).
Qed.
Print Assumptions C164_maxwell.
(** If every cell absorbs (or every cell amplifies) by at least sigma, the 3-D problem has exactly one solution for every source and every Bloch
    phase, the source's work is what the material absorbs, and the field is at most |src| / (k0 sigma). *)
Theorem C164_solvable_3d : forall d sigma src, plain_grid d -> lossy d sigma ->
  (exists solver, exact3c d solver src) /\
  forall solver, exact3c d solver src -> let e := fst (solve3c d solver src) in
    im (vinner (cf_shape d) src e) = - (cf_k0 d * sum3 (fun c => rgrid_sum (cf_shape d) (fun i j k => im (eps_at (cf_shape d) (cf_eps d) c i j k) * Cn2 (e c i j k)))) /\
    (cf_k0 d * sigma) * (cf_k0 d * sigma) * vpower2 (cf_shape d) e <= vpower2 (cf_shape d) src /\
    (forall solver', exact3c d solver' src -> forall c, same_on (cf_shape d) (fst (solve3c d solver' src) c) (e c)).
Proof. exact well_posed3. Qed.
Print Assumptions C164_solvable_3d.
Theorem C164_solvable_te : forall d sigma src, plain_grid d -> lossy d sigma ->
  (exists solver, exact2c d (mat_ez_c d) solver src) /\
  forall solver, exact2c d (mat_ez_c d) solver src -> let e := fst (solve2_te_c d solver src) AZ in
    im (inner (cf_shape d) src e) = - (cf_k0 d * rgrid_sum (cf_shape d) (fun i j k => im (eps_at (cf_shape d) (cf_eps d) AZ i j k) * Cn2 (e i j k))) /\
    (cf_k0 d * sigma) * (cf_k0 d * sigma) * power2 (cf_shape d) e <= power2 (cf_shape d) src /\
    (forall solver', exact2c d (mat_ez_c d) solver' src -> same_on (cf_shape d) (fst (solve2_te_c d solver' src) AZ) e).
Proof. exact well_posed_te. Qed.
Print Assumptions C164_solvable_te.
(** TM: the bound depends on how large the real part is compared with the imaginary part. *)
Theorem C164_solvable_tm : forall d sigma kappa src, plain_grid d -> lossy d sigma ->
  (forall i j k, in_grid (cf_shape d) i j k -> Rabs (re (cf_eps d i j k)) <= kappa * Rabs (im (cf_eps d i j k))) ->
  (exists solver, exact2c d (mat_hz_c d) solver src) /\
  forall solver, exact2c d (mat_hz_c d) solver src -> let h := snd (solve2_tm_c d solver src) AZ in
    cf_k0 d * cf_k0 d * power2 (cf_shape d) h <= (1 + kappa * kappa) * power2 (cf_shape d) src /\
    (forall solver', exact2c d (mat_hz_c d) solver' src -> same_on (cf_shape d) (snd (solve2_tm_c d solver' src) AZ) h).
Proof. exact well_posed_tm. Qed.
Print Assumptions C164_solvable_tm.
(** A real permittivity gives the matrices of C36-C61. *)
Theorem C164_real : forall s dxf dxb bl k0 p,
  let d := mkCfdfd s dxf dxb bl k0 (fun i j k => RtoC (p i j k)) in let d' := mkFdfd s dxf dxb bl k0 (yee_avg s p) in
  (forall a b r c, mat3c d a b r c = mat3 d' a b r c) /\ (forall r c, mat_ez_c d r c = mat_ez d' r c) /\
  ((forall c i j k, yee_avg s p c i j k <> 0) -> forall r c, mat_hz_c d r c = mat_hz d' r c).
Proof. exact real_matrices. Qed.
Print Assumptions C164_real.
(** Without absorption the claim fails: two vacuum cells, k0 = 2, a source for which no solver can return an exact field. *)
Theorem C164_lossless_refuted : exists d src, plain_grid d /\ (forall i j k, cf_eps d i j k = C1) /\ forall solver, ~ exact2c d (mat_ez_c d) solver src.
Proof. exists (two_lossy C1 2), no_source. split; [exact (proj1 lossless_unsolvable) | split; [reflexivity | exact (proj2 lossless_unsolvable)]]. Qed.
Print Assumptions C164_lossless_refuted.
(** Two cells of silicon-like material with a little absorption meet the hypotheses. *)
Example C164_nonvacuous : plain_grid (two_lossy (mkC 12 (1/2)) 4) /\ lossy (two_lossy (mkC 12 (1/2)) 4) (1/2) /\
  forall i j k, in_grid (cf_shape (two_lossy (mkC 12 (1/2)) 4)) i j k -> Rabs (re (cf_eps (two_lossy (mkC 12 (1/2)) 4) i j k)) <= (Rabs 12 / (1/2)) * Rabs (im (cf_eps (two_lossy (mkC 12 (1/2)) 4) i j k)).
Proof. apply (two_lossy_ok (mkC 12 (1/2)) 4); cbn; lra. Qed.
