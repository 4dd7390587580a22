(** C142: ForwardMesh.matrix_opt. *)
From Coq Require Import Reals List Arith Lia Lra FunctionalExtensionality.
From Verif Require Import Cx Arr Model_coupling Model_forward Spec_circuit Spec_mesh Spec_insitu Model_matopt Spec_matopt Proof_matopt Prop_forward.
Import ListNotations.
Local Open Scope R_scope.

(** The optimiser starts from the phases given, or from the mesh's own. *)
Theorem C142_init : forall own, get_params (opt_init own None) = own /\ forall p, get_params (opt_init own (Some p)) = p.
Proof. intro own. split; [destruct own | intros []]; reflexivity. Qed.
Print Assumptions C142_init.
(** Each update reports the error at the phases it starts from; for a lossless mesh and a unitary target it is a number between 0 and 1, and 0 exactly when
    the mesh implements the target up to a global phase. *)
Theorem C142_reports_cost : forall m u grad step i s, wf_mesh m -> lossless m -> (0 < n_rails m)%nat -> unitary (n_rails m) u ->
  exists x, fst (update_fn (opt_cost m u) grad step i s) = Some x /\ 0 <= x <= 1 /\
    (x = 0 <-> exists c, Cn2 c = 1 /\ forall r j, (r < n_rails m)%nat -> (j < n_rails m)%nat -> matrix m false (get_params s) r j = Some (c * u r j)%C).
Proof. intros m u grad step i s. exact (cost_range m u (get_params s)). Qed.
Print Assumptions C142_reports_cost.
(** Away from a perfect match the error has a derivative along every smooth path of phases (so the gradient jax computes exists). *)
Theorem C142_differentiable : forall m u p t0, wf_mesh m -> lossless m -> (0 < n_rails m)%nat -> unitary (n_rails m) u -> smooth_at p t0 ->
  opt_cost m u (p t0) <> Some 0 -> exists d, has_slope (fun t => opt_cost m u (p t)) t0 d.
Proof. exact cost_slope. Qed.
Print Assumptions C142_differentiable.
(** The first update moves every phase against its partial derivative g by step_size * g / (|g| + 1e-8). *)
Theorem C142_first_step : forall cost grad step own given k,
  let s := opt_init own given in let p := get_params s in let q := get_params (snd (update_fn cost grad step 0 s)) in
  thetas q k = thetas p k - step * (thetas (grad p) k / (Rabs (thetas (grad p) k) + / 10 ^ 8)) /\
  phis q k = phis p k - step * (phis (grad p) k / (Rabs (phis (grad p) k) + / 10 ^ 8)) /\
  gammas q k = gammas p k - step * (gammas (grad p) k / (Rabs (gammas (grad p) k) + / 10 ^ 8)).
Proof. intros. repeat split; apply adam_first. Qed.
Print Assumptions C142_first_step.
(** No update, after any history of updates with any indices, moves a phase by more than 7.3 step sizes. *)
Theorem C142_step_bound : forall cost grad step own given is i, let s := fold_left (fun s i => snd (update_fn cost grad step i s)) is (opt_init own given) in
  phases_within (73 / 10 * Rabs step) (get_params s) (get_params (snd (update_fn cost grad step i s))).
Proof. exact opt_moves. Qed.
Print Assumptions C142_step_bound.
(** At a perfect match the error has no derivative with respect to any output phase: it has a corner there, so the gradient is not defined. *)
Theorem C142_corner : forall m u p r d, wf_mesh m -> lossless m -> unitary (n_rails m) u -> opt_cost m u p = Some 0 -> (r < n_rails m)%nat ->
  opt_cost m u (with_gamma p r (gammas p r + d)) = Some (2 * sqrt (INR (n_rails m) - 1) / INR (n_rails m) * Rabs (sin (d / 2))).
Proof. exact cost_near_match. Qed.
Print Assumptions C142_corner.
Theorem C142_gradient_at_match_refuted : forall m u p r d, wf_mesh m -> lossless m -> unitary (n_rails m) u -> opt_cost m u p = Some 0 ->
  (r < n_rails m)%nat -> (2 <= n_rails m)%nat -> ~ has_slope (fun g => opt_cost m u (with_gamma p r g)) (gammas p r) d.
Proof. exact no_slope_at_match. Qed.
Print Assumptions C142_gradient_at_match_refuted.

(** Non-vacuity: a four-rail mesh with its own matrix as the target. *)
Example C142_nonvacuous : forall s p, wf_mesh (mesh3 s) /\ lossless (mesh3 s) /\ (2 <= n_rails (mesh3 s))%nat /\ unitary 4 (mesh_matrix (mesh3 s) p) /\
  opt_cost (mesh3 s) (mesh_matrix (mesh3 s) p) p = Some 0.
Proof.
  intros s p. destruct (mesh3_wf s) as (W1 & W & L & _). 
  assert (U : unitary 4 (mesh_matrix (mesh3 s) p)) by (apply (mesh_matrix_unitary (mesh3 s)); auto).
  split; [auto |]. split; [auto |]. split; [cbn; lia |]. split; auto.
  destruct (cost_range (mesh3 s) (mesh_matrix (mesh3 s) p) p W L ltac:(cbn; lia) U) as (x & E & _ & Z).
  rewrite E. f_equal. apply Z. exists C1. split; [unfold Cn2, C1, RtoC; cbn [re im]; ring |]. intros i j _ _.
  destruct (C03_unitary (mesh3 s) false p W L) as (V & EV & _). unfold mesh_matrix. rewrite EV. f_equal. ring.
Qed.
