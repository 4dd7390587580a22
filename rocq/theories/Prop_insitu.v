(** C25 (and C57): in-situ backpropagation. *)
From Coq Require Import Reals List ZArith Lra.
From Verif Require Import Cx Arr Spec_circuit Model_coupling Model_forward Model_vector Model_insitu Spec_mesh Spec_insitu
  Proof_forward4 Proof_insitu2 Proof_insitu3 Proof_insitu4.
Import ListNotations.
Local Open Scope R_scope.

(** C25, full statement: for every mesh the k-th entry of the three gradients is the derivative of the cost with respect to
    the k-th phase.  Proved for well-formed meshes of style TOP with ideal couplers (no splitting error, no loss; with
    errors already the forward pass of the measurement differs from the mesh, C09), for every node count, layout,
    phases, input and cotangent, and with the entries in COLUMN order.  [clean] unfolds to exactly these hypotheses. *)
Theorem C25_in_situ_gradient_partial : forall m p x g,
  wf_mesh m -> style m = TOP ->
  (forall e, In e (bs_errors m) -> e = (0, 0)) -> (forall l, In l (losses m) -> l = (0, 0)) ->
  0 < power (n_rails m) x -> 0 < power (n_rails m) g ->
  exists th ph ga a, in_situ_bwd m p x g = Some (th, ph, ga, a) /\
  Forall2 (fun nd d => derivable_pt_lim (fun t => cost m g x (with_theta p (node_id nd) t)) (thetas p (node_id nd)) d) (column_order m) th /\
  Forall2 (fun nd d => derivable_pt_lim (fun t => cost m g x (with_phi p (node_id nd) t)) (phis p (node_id nd)) d) (column_order m) ph /\
  (forall r, (r < n_rails m)%nat -> derivable_pt_lim (fun t => cost m g x (with_gamma p r t)) (gammas p r) (ga r)) /\
  (forall v y, matrix_fn m false p v = Some y ->
     (RtoC (sqrt (power (n_rails m) g)) * Csum (n_rails m) (fun i => a i * v i))%C = Csum (n_rails m) (fun i => g i * y i)%C).
Proof. exact (fun m p x g H1 H2 H3 H4 => insitu_grad m p x g (Build_clean m H1 H2 H3 H4)). Qed.
Print Assumptions C25_in_situ_gradient_partial.

(** The same for a batch of k inputs (InSituBackpropLayer feeds the identity matrix). *)
Theorem C25_in_situ_batch_partial : forall m p k X G i1 j1 i2 j2,
  wf_mesh m -> style m = TOP ->
  (forall e, In e (bs_errors m) -> e = (0, 0)) -> (forall l, In l (losses m) -> l = (0, 0)) ->
  (i1 < n_rails m)%nat -> (j1 < k)%nat -> X i1 j1 <> C0 -> (i2 < n_rails m)%nat -> (j2 < k)%nat -> G i2 j2 <> C0 ->
  exists th ph ga, in_situ_bwd_batch m p k X G = Some (th, ph, ga) /\
  Forall2 (fun nd d => derivable_pt_lim (fun t => cost_batch m k G X (with_theta p (node_id nd) t)) (thetas p (node_id nd)) d) (column_order m) th /\
  Forall2 (fun nd d => derivable_pt_lim (fun t => cost_batch m k G X (with_phi p (node_id nd) t)) (phis p (node_id nd)) d) (column_order m) ph /\
  (forall r, (r < n_rails m)%nat -> derivable_pt_lim (fun t => cost_batch m k G X (with_gamma p r t)) (gammas p r) (ga r)).
Proof. exact (fun m p k X G i1 j1 i2 j2 H1 H2 H3 H4 => insitu_grad_batch m p k X G i1 j1 i2 j2 (Build_clean m H1 H2 H3 H4)). Qed.
Print Assumptions C25_in_situ_batch_partial.

(** The parameters are indexed by node id, the measured gradient by column: on tree(3) the entry for theta_0 is the
    derivative of another phase. *)
Theorem C25_parameter_order_refuted : exists m p x g th ph ga a, tree 3 3 true TOP = Some m /\ in_situ_bwd m p x g = Some (th, ph, ga, a) /\
  ~ derivable_pt_lim (fun t => cost m g x (with_theta p 0 t)) (thetas p 0%nat) (nth 0 th 0).
Proof. exact (ex_intro _ M3 order_witness). Qed.
Print Assumptions C25_parameter_order_refuted.
(** Style BOTTOM: the taps are on the top rail, the shifters on the bottom rail. *)
Theorem C25_bottom_style_refuted : exists m p x g th ph ga a, mk_mesh [mkNode 0 (0,0) (0,0) 2 0 1 1 1 0] BOTTOM = Some m /\
  in_situ_bwd m p x g = Some (th, ph, ga, a) /\
  derivable_pt_lim (fun t => cost m g x (with_phi p 0 t)) (phis p 0%nat) 0 /\ nth 0 ph 0 = 1 / 2.
Proof. exact bottom_style. Qed.
Print Assumptions C25_bottom_style_refuted.
(** tree(3) meets the hypotheses. *)
Example C25_nonvacuous : exists m, tree 3 3 true TOP = Some m /\ wf_mesh m /\ style m = TOP /\
  (forall e, In e (bs_errors m) -> e = (0, 0)) /\ (forall l, In l (losses m) -> l = (0, 0)) /\ 0 < power (n_rails m) (basis 1).
Proof. exact M3_example. Qed.

(** C57, full statement: the fourth result is the cotangent of the input, M^T g.  False of the code: g was divided by its
    norm and the result is not multiplied by it again (theorem C25, last conjunct, gives the exact value). *)
Theorem C57_input_cotangent_refuted : exists m p x g th ph ga a, tree 3 3 true TOP = Some m /\
  in_situ_bwd m p x g = Some (th, ph, ga, a) /\
  exists y, matrix_fn m false p x = Some y /\ Csum 3 (fun i => a i * x i)%C <> Csum 3 (fun i => g i * y i)%C.
Proof. exact cotangent_witness. Qed.
Print Assumptions C57_input_cotangent_refuted.
