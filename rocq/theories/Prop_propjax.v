(** C162: propagation through the mesh on the jax path. *)
From Coq Require Import Reals Lra Lia List ZArith Bool Permutation.
From Verif Require Import Cx Arr Model_coupling Model_forward Model_propjax Spec_mesh Proof_mesh Proof_forward Proof_forward3 Proof_forward4 Proof_vector Proof_insitu5 Proof_propjax Prop_forward.
Import ListNotations.
Local Open Scope R_scope.

(** C162, full statement: propagate_matrix_fn(use_jax=True) returns the slices of the numpy path over all columns, in either direction
    and with explicit True or False, and ignores column_cutoff ("default to all columns if None or use_jax True").
    True with explicit=True and no cut-off, whatever order jax's scatters write in (both paths raise for SYMMETRIC and DIFFERENTIAL). *)
Theorem C162_same_partial : forall order m back p x, (forall l, Permutation (order l) l) -> rails_disjoint (nodes m) ->
  propagate_jax order m back true None p x = propagate m back true p x.
Proof. exact propagate_jax_same. Qed.
Print Assumptions C162_same_partial.
(** With a cut-off, all columns are propagated but the gammas are left out: one slice fewer than without a cut-off. *)
Theorem C162_cutoff_forward : forall order m c p x, (forall l, Permutation (order l) l) -> rails_disjoint (nodes m) -> c <> num_columns m ->
  propagate_jax order m false true (Some c) p x = match propagate m false true p x with Some sl => Some (removelast sl) | None => None end.
Proof. exact propagate_jax_cut_forward. Qed.
Print Assumptions C162_cutoff_forward.
Theorem C162_cutoff_backward : forall order m c p x, (forall l, Permutation (order l) l) -> rails_disjoint (nodes m) -> c <> (-1)%Z ->
  propagate_jax order m true true (Some c) p x =
  match propagate m true true (mkParams (thetas p) (phis p) (fun _ => 0)) x with Some sl => Some (tl sl) | None => None end.
Proof. exact propagate_jax_cut_backward. Qed.
Print Assumptions C162_cutoff_backward.
Theorem C162_cutoff_refuted : forall order m (back : bool) c p x sl, (forall l, Permutation (order l) l) -> rails_disjoint (nodes m) ->
  c <> (if back then (-1)%Z else num_columns m) -> propagate_jax order m back true None p x = Some sl ->
  exists sl', propagate_jax order m back true (Some c) p x = Some sl' /\ length sl = S (length sl').
Proof. exact propagate_jax_cutoff_differs. Qed.
Print Assumptions C162_cutoff_refuted.
(** explicit=False raises for every mesh. *)
Theorem C162_implicit_refuted : forall order m back cutoff p x, propagate_jax order m back false cutoff p x = None.
Proof. exact propagate_jax_implicit. Qed.
Print Assumptions C162_implicit_refuted.
(** In mesh3 the second column is padded with a masked dummy node. *)
Example C162_nonvacuous : exists sl, rails_disjoint (nodes (mesh3 TOP)) /\ propagate_jax (@rev _) (mesh3 TOP) true true None (pconst 1 2) (basis 0) = Some sl /\
  (0 <> num_columns (mesh3 TOP))%Z.
Proof.
  pose proof (proj1 (proj2 (mesh3_wf TOP))) as W.
  destruct (propagate_retrace (mesh3 TOP) (pconst 1 2) (basis 0) W (or_introl eq_refl)) as (sl & fwd & E & _).
  { intros l H. cbn in H. intuition congruence. }
  exists sl. split; [apply W |]. split; [| discriminate]. rewrite propagate_jax_same; [exact E | intros; apply Permutation_sym, Permutation_rev | apply W].
Qed.
