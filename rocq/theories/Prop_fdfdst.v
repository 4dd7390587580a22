(** C165: stability of frequency-domain solutions of absorbing materials. *)
From Coq Require Import Reals List Arith ZArith Lra Lia.
From Verif Require Import Cx Arr Model_coupling Model_yee Spec_yee Model_fdfd Spec_fdfd Spec_fdtd Model_fdfdc Spec_fdfdc Proof_fdfdc4 Spec_fdfdst Proof_fdfdst Proof_fdfdst2 Spec_fdfdtm Proof_fdfdtm.
Local Open Scope R_scope.

(** 3-D.  [res]: what the solver leaves of its equations; dl: the largest change of the permittivity of a cell; src': another source. *)
Theorem C165_stability_3d : forall d eps' sigma dl src src' res solver solver', plain_grid d -> lossy d sigma -> lossy (with_eps d eps') sigma ->
  (forall i j k, in_grid (cf_shape d) i j k -> Cabs (cf_eps d i j k - eps' i j k)%C <= dl) -> 0 <= dl ->
  near3c d solver src res -> exact3c (with_eps d eps') solver' src' ->
  cf_k0 d * sigma * vnorm2 (cf_shape d) (vsub (fst (solve3c d solver src)) (fst (solve3c (with_eps d eps') solver' src'))) <=
  vnorm2 (cf_shape d) (vsub src src') + vnorm2 (cf_shape d) res / cf_k0 d + dl / sigma * vnorm2 (cf_shape d) src'.
Proof. exact stable3. Qed.
Print Assumptions C165_stability_3d.
Theorem C165_stability_te : forall d eps' sigma dl src src' res solver solver', plain_grid d -> lossy d sigma -> lossy (with_eps d eps') sigma ->
  (forall i j k, in_grid (cf_shape d) i j k -> Cabs (cf_eps d i j k - eps' i j k)%C <= dl) -> 0 <= dl ->
  near2c d (mat_ez_c d) solver src res -> exact2c (with_eps d eps') (mat_ez_c (with_eps d eps')) solver' src' ->
  cf_k0 d * sigma * norm2 (cf_shape d) (fsub (fst (solve2_te_c d solver src) AZ) (fst (solve2_te_c (with_eps d eps') solver' src') AZ)) <=
  norm2 (cf_shape d) (fsub src src') + norm2 (cf_shape d) res / cf_k0 d + dl / sigma * norm2 (cf_shape d) src'.
Proof. exact stable_te. Qed.
Print Assumptions C165_stability_te.
(** TM. *)
Theorem C165_stability_tm : forall d eps' sigma kappa dl src src' res solver solver', plain_grid d -> lossy d sigma -> lossy (with_eps d eps') sigma ->
  sloped d kappa -> sloped (with_eps d eps') kappa ->
  (forall i j k, in_grid (cf_shape d) i j k -> Cabs (cf_eps d i j k - eps' i j k)%C <= dl) -> 0 <= dl ->
  near2c d (mat_hz_c d) solver src res -> exact2c (with_eps d eps') (mat_hz_c (with_eps d eps')) solver' src' ->
  cf_k0 d * norm2 (cf_shape d) (fsub (snd (solve2_tm_c d solver src) AZ) (snd (solve2_tm_c (with_eps d eps') solver' src') AZ)) <=
  sqrt (1 + kappa * kappa) * (norm2 (cf_shape d) (fsub src src') + norm2 (cf_shape d) res / cf_k0 d + dl / sigma * norm2 (cf_shape d) src').
Proof. exact stable_tm_eps. Qed.
Print Assumptions C165_stability_tm.
(** Instance: two cells, permittivities 12 + i/2 and 12 + i; the zero answer leaves the residual - k0 src; C164 gives the exact solver. *)
Example C165_nonvacuous : let d := two_lossy (mkC 12 (1/2)) 4 in plain_grid d /\ lossy d (1/2) /\ lossy (with_eps d (fun _ _ _ => mkC 12 1)) (1/2) /\
  sloped d 24 /\ sloped (with_eps d (fun _ _ _ => mkC 12 1)) 24 /\
  (forall i j k, in_grid (cf_shape d) i j k -> Cabs (cf_eps d i j k - mkC 12 1)%C <= 1/2) /\
  forall src, near3c d (fun _ _ _ _ => C0) src (fun c i j k => (- (RtoC 4 * src c i j k))%C).
Proof.
  intros d. destruct (two_lossy_ok (mkC 12 (1/2)) 4) as (H1 & H2 & _); [cbn; lra | lra |]. split; [exact H1 |]. split; [exact H2 |]. split; [| split].
  - split; [lra |]. left. intros. cbn. lra.
  - intros i j k _. cbn. rewrite !Rabs_right; lra.
  - split; [intros i j k _; cbn; rewrite !Rabs_right; lra |]. split.
    + intros i j k _. unfold Cabs, Cn2. cbn [d two_lossy cf_eps re im Csub]. replace ((12 - 12) * (12 - 12) + (1/2 - 1) * (1/2 - 1)) with ((1/2) * (1/2)) by field. rewrite sqrt_square; lra.
    + intros src c r _. unfold bmatvec. assert (Z : forall M r, matvec (npix (cf_shape d)) M (fun _ : nat => C0) r = C0) by (intros; unfold matvec; apply Csum_0; intros; ring).
    rewrite !Z. unfold ravel. cbn [d two_lossy cf_k0]. ring.
Qed.
