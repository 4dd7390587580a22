(** C83 - C85: nullification basis and programming by it. *)
From Coq Require Import Reals Lra Lia List ZArith Bool.
From Verif Require Import Cx Arr Model_coupling Model_forward Model_null Spec_mesh Spec_null Proof_forward4 Proof_vector Proof_null
  Proof_nbasis4 Proof_nbasis5 Proof_nbasis6.
Import ListNotations.
Local Open Scope R_scope.

(** C83.  One vector per column; sent forward through the columns up to its own, it arrives on the lower rails of that
    column and nowhere else (every node of the column is nulled on its upper rail). *)
Theorem C83_null_vectors : forall m p, wf_mesh m -> lossless m -> equal_errors m -> style m <> DIFFERENTIAL ->
  exists ws, nullification_basis m p = Some ws /\ length ws = Z.to_nat (num_columns m) /\
    forall c w, nth_error ws c = Some w ->
      exists sl, propagate_cut m false false (Some (Z.of_nat (c + 1))) p w = Some sl /\
        forall i, (lower_rail m c i -> Cn2 (last sl w i) = 1) /\ (~ lower_rail m c i -> last sl w i = C0).
Proof. exact null_vectors. Qed.
Print Assumptions C83_null_vectors.
(** Without a cut-off, the sliced propagation is the full one. *)
Theorem C83_no_cutoff : forall m back explicit p x, NoDup (map node_id (nodes m)) ->
  propagate_cut m back explicit None p x = propagate m back explicit p x.
Proof. exact propagate_cut_none. Qed.
Print Assumptions C83_no_cutoff.
(** Differential phase shifters: the vector is not nulled; here all its power leaves on the upper rail. *)
Theorem C83_differential_refuted : exists m p ws w sl, wf_mesh m /\ lossless m /\ equal_errors m /\ style m = DIFFERENTIAL /\
  nullification_basis m p = Some ws /\ nth_error ws 0%nat = Some w /\ propagate_cut m false false (Some 1%Z) p w = Some sl /\
  ~ lower_rail m 0 0%nat /\ Cn2 (last sl w 0%nat) = 1.
Proof. exact null_vectors_differential. Qed.
Print Assumptions C83_differential_refuted.

(** C84.  The basis of an ideal (or any) target programs hardware with coupler errors to the target's matrix up to output phases,
    when every target node's split is within the hardware's reach.  [eps = 0]: np.spacing(1) is neglected. *)
Theorem C84_error_correction_partial : forall mh mt pt p0, wf_mesh mh -> wf_mesh mt -> same_wiring mh mt ->
  lossless mh -> lossless mt -> equal_errors mh -> equal_errors mt ->
  (style mh = TOP \/ style mh = BOTTOM) -> style mt <> DIFFERENTIAL ->
  Forall (fun e => - (PI/4) < fst e < PI/4) (bs_errors mh) ->
  (forall nd, In nd (nodes mt) ->
     crossing mt pt (node_id nd) <= (2 * (cos (PI/4 + fst (err_at mh (node_id nd))) * sin (PI/4 + fst (err_at mh (node_id nd))))) ^ 2) ->
  exists ws p, nullification_basis mt pt = Some ws /\ program_by_null_basis 0 mh p0 ws = Some p /\ gammas p = gammas p0 /\
    exists g, forall x, matrix_fn mh false (mkParams (thetas p) (phis p) g) x = matrix_fn mt false pt x.
Proof. exact program_realises. Qed.
Print Assumptions C84_error_correction_partial.
Theorem C84_symmetric_raises : forall eps m p w ws, wf_mesh m -> (0 < num_columns m)%Z -> style m = SYMMETRIC ->
  program_by_null_basis eps m p (w :: ws) = None.
Proof. exact program_symmetric_raises. Qed.
Print Assumptions C84_symmetric_raises.

(** With the guard [eps] of the code (np.spacing(1) added to the power, circuit/coupling.py:206): whatever the vectors, every column that the
    couplers can null is left with at most [eps] power on the upper rails, and the power of each pair of rails is conserved. *)
Theorem C84_residual : forall eps m p0 ws, 0 <= eps -> wf_mesh m -> lossless m -> equal_errors m -> style m = TOP \/ style m = BOTTOM ->
  Forall (fun e => - (PI/4) < fst e < PI/4) (bs_errors m) -> length ws = Z.to_nat (num_columns m) ->
  exists p, program_by_null_basis eps m p0 ws = Some p /\ gammas p = gammas p0 /\
    forall c w, nth_error ws c = Some w -> exists sl0 sl, propagate_cut m false false (Some (Z.of_nat c)) p w = Some sl0 /\
      propagate_cut m false false (Some (Z.of_nat (c + 1))) p w = Some sl /\
      forall nd, In nd (nodes m) -> column nd = Z.of_nat c ->
        let t := last sl0 w (top nd) in let b := last sl0 w (bottom nd) in
        Cn2 t <= cos (2 * fst (err_at m (node_id nd))) ^ 2 * (Cn2 t + Cn2 b + eps) ->
        Cn2 (last sl w (top nd)) <= eps /\ Cn2 (last sl w (top nd)) + Cn2 (last sl w (bottom nd)) = Cn2 t + Cn2 b.
Proof. exact residual. Qed.
Print Assumptions C84_residual.
(** The guard lowers every split ratio of the first column by the factor 1 + eps. *)
Theorem C84_guard : forall eps mh mt pt p0, 0 <= eps -> wf_mesh mh -> wf_mesh mt -> same_wiring mh mt ->
  lossless mh -> lossless mt -> equal_errors mh -> equal_errors mt ->
  (style mh = TOP \/ style mh = BOTTOM) -> style mt <> DIFFERENTIAL ->
  Forall (fun e => - (PI/4) < fst e < PI/4) (bs_errors mh) ->
  exists ws p, nullification_basis mt pt = Some ws /\ program_by_null_basis eps mh p0 ws = Some p /\ gammas p = gammas p0 /\
    forall nd, In nd (nodes mh) -> column nd = 0%Z -> (0 < num_columns mh)%Z ->
      crossing mt pt (node_id nd) <= (2 * (cos (PI/4 + fst (err_at mh (node_id nd))) * sin (PI/4 + fst (err_at mh (node_id nd))))) ^ 2 ->
      crossing mh p (node_id nd) = crossing mt pt (node_id nd) / (1 + eps).
Proof. exact guard_first. Qed.
Print Assumptions C84_guard.
(** With a positive guard (np.spacing(1) is 2.2e-16), not even an ideal mesh is programmed exactly to its own setting: neither the matrix
    up to output phases (C84) nor the phases (C85). *)
Theorem C84_guard_refuted : forall eps p0, 0 < eps ->
  exists m pt ws p, wf_mesh m /\ lossless m /\ equal_errors m /\ style m = TOP /\ Forall (fun e => - (PI/4) < fst e < PI/4) (bs_errors m) /\
    (forall nd, In nd (nodes m) -> crossing m pt (node_id nd) <= (2 * (cos (PI/4 + fst (err_at m (node_id nd))) * sin (PI/4 + fst (err_at m (node_id nd))))) ^ 2) /\
    (forall nd, In nd (nodes m) -> 0 < thetas pt (node_id nd) < PI /\ 0 <= phis pt (node_id nd) < 2 * PI) /\
    nullification_basis m pt = Some ws /\ program_by_null_basis eps m p0 ws = Some p /\
    (forall g, exists x, matrix_fn m false (mkParams (thetas p) (phis p) g) x <> matrix_fn m false pt x) /\
    exists nd, In nd (nodes m) /\ thetas p (node_id nd) <> thetas pt (node_id nd).
Proof. exact guard_refuted. Qed.
Print Assumptions C84_guard_refuted.

(** C85.  Programming a mesh by its own basis restores its phases, from any starting point. *)
Theorem C85_round_trip_partial : forall m pt, wf_mesh m -> lossless m -> equal_errors m -> (style m = TOP \/ style m = BOTTOM) ->
  Forall (fun e => - (PI/4) < fst e < PI/4) (bs_errors m) ->
  (forall nd, In nd (nodes m) -> 0 < thetas pt (node_id nd) < PI /\ 0 <= phis pt (node_id nd) < 2 * PI) ->
  forall p0, exists ws p, nullification_basis m pt = Some ws /\ program_by_null_basis 0 m p0 ws = Some p /\
    forall nd, In nd (nodes m) -> (0 <= column nd < num_columns m)%Z ->
      thetas p (node_id nd) = thetas pt (node_id nd) /\ phis p (node_id nd) = phis pt (node_id nd).
Proof. exact program_recovers_s. Qed.
Print Assumptions C85_round_trip_partial.

(** C85 with the guard kept: the phase of some node is not restored. *)
Theorem C85_guard_refuted : forall eps p0, 0 < eps ->
  exists m pt ws p, wf_mesh m /\ lossless m /\ equal_errors m /\ style m = TOP /\ Forall (fun e => - (PI/4) < fst e < PI/4) (bs_errors m) /\
    (forall nd, In nd (nodes m) -> 0 < thetas pt (node_id nd) < PI /\ 0 <= phis pt (node_id nd) < 2 * PI) /\
    nullification_basis m pt = Some ws /\ program_by_null_basis eps m p0 ws = Some p /\
    exists nd, In nd (nodes m) /\ thetas p (node_id nd) <> thetas pt (node_id nd).
Proof. exact guard_refuted85. Qed.
Print Assumptions C85_guard_refuted.

(** Instances: one node, ideal target, hardware with coupler errors PI/12 and the target split in half. *)
Example C84_nonvacuous :
  let mh := mesh1 TOP (PI/12, PI/12) (0, 0) in let mt := mesh1 BOTTOM (0, 0) (0, 0) in
  let pt := mkParams (fun _ => PI/2) (fun _ => 1) (fun _ => 0) in
  same_wiring mh mt /\ equal_errors mh /\ lossless mh /\ Forall (fun e => - (PI/4) < fst e < PI/4) (bs_errors mh) /\
  (forall nd, In nd (nodes mt) ->
     crossing mt pt (node_id nd) <= (2 * (cos (PI/4 + fst (err_at mh (node_id nd))) * sin (PI/4 + fst (err_at mh (node_id nd))))) ^ 2).
Proof.
  cbv zeta. pose proof PI_RGT_0. repeat split; try (repeat constructor; cbn; lra).
  intros nd [<- | []]. cbn [node_id node1]. unfold crossing, mzis, err_at, loss_at. cbn [mesh1 bs_errors losses nth style thetas phis fst].
  rewrite cross_eq, cos_PI2, !Rplus_0_r, cos_PI4, sin_PI4.
  assert (E2 : 1 / sqrt 2 * (1 / sqrt 2) = 1 / 2).
  { pose proof (sqrt_sqrt 2 ltac:(lra)) as K. assert (sqrt 2 <> 0) by (apply sqrt2_neq_0). field_simplify_eq; [lra | assumption]. }
  rewrite E2. replace (PI / 4 + PI / 12) with (PI / 3) by field. rewrite cos_PI3, sin_PI3.
  pose proof (sqrt_sqrt 3 ltac:(lra)) as K. nra.
Qed.
