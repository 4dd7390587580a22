(** C127 (time reversal of the propagated fields) and C25 with all_analog=False. *)
From Coq Require Import Reals List ZArith Lra.
From Verif Require Import Cx Arr Spec_circuit Model_coupling Model_forward Model_vector Model_insitu Model_insitu2 Spec_mesh Spec_insitu
  Proof_forward4 Proof_insitu2 Proof_insitu5 Proof_insitu6.
Import ListNotations.
Local Open Scope R_scope.

(** C127: a lossless mesh with arbitrary splitting errors.  Sending the conjugate of what came out at the input side forward again retraces,
    slice by slice, the conjugate of the backward fields in reverse order ... *)
Theorem C127_retrace_backward : forall m p w, wf_mesh m -> style m = TOP \/ style m = BOTTOM -> (forall l, In l (losses m) -> l = (0, 0)) ->
  exists back fwd, propagate m true true p w = Some back /\
    propagate m false true p (fun i => Cconj (last back w i)) = Some fwd /\ fwd = map (fun v i => Cconj (v i)) (rev back).
Proof. exact propagate_retrace. Qed.
Print Assumptions C127_retrace_backward.
(** ... and the other way round. *)
Theorem C127_retrace_forward : forall m p v, wf_mesh m -> style m = TOP \/ style m = BOTTOM -> (forall l, In l (losses m) -> l = (0, 0)) ->
  exists fwd back, propagate m false true p v = Some fwd /\
    propagate m true true p (fun i => Cconj (last fwd v i)) = Some back /\ back = map (fun v i => Cconj (v i)) (rev fwd).
Proof. exact propagate_retrace_fwd. Qed.
Print Assumptions C127_retrace_forward.
Example C127_nonvacuous : exists m, mk_mesh [mkNode 0 (0, 0) (1 / 10, - 1 / 10) 2 0 1 1 1 0] TOP = Some m /\ wf_mesh m /\ style m = TOP /\
  (forall l, In l (losses m) -> l = (0, 0)) /\ bs_errors m <> [(0, 0)].
Proof. exact retrace_example. Qed.

(** C25, digital subtraction (all_analog=False): the same gradients, under the same hypotheses as C25_in_situ_gradient_partial. *)
Theorem C25_digital_gradient_partial : forall m p x g,
  wf_mesh m -> style m = TOP ->
  (forall e, In e (bs_errors m) -> e = (0, 0)) -> (forall l, In l (losses m) -> l = (0, 0)) ->
  0 < power (n_rails m) x -> 0 < power (n_rails m) g ->
  exists th ph ga a, in_situ_bwd_digital m p x g = Some (th, ph, ga, a) /\
  Forall2 (fun nd d => derivable_pt_lim (fun t => cost m g x (with_theta p (node_id nd) t)) (thetas p (node_id nd)) d) (column_order m) th /\
  Forall2 (fun nd d => derivable_pt_lim (fun t => cost m g x (with_phi p (node_id nd) t)) (phis p (node_id nd)) d) (column_order m) ph /\
  (forall r, (r < n_rails m)%nat -> derivable_pt_lim (fun t => cost m g x (with_gamma p r t)) (gammas p r) (ga r)) /\
  (forall v y, matrix_fn m false p v = Some y ->
     (RtoC (sqrt (power (n_rails m) g)) * Csum (n_rails m) (fun i => a i * v i))%C = Csum (n_rails m) (fun i => g i * y i)%C).
Proof. exact (fun m p x g H1 H2 H3 H4 => digital_grad m p x g (Build_clean m H1 H2 H3 H4)). Qed.
Print Assumptions C25_digital_gradient_partial.
Theorem C25_digital_batch_partial : forall m p k X G i1 j1 i2 j2,
  wf_mesh m -> style m = TOP ->
  (forall e, In e (bs_errors m) -> e = (0, 0)) -> (forall l, In l (losses m) -> l = (0, 0)) ->
  (i1 < n_rails m)%nat -> (j1 < k)%nat -> X i1 j1 <> C0 -> (i2 < n_rails m)%nat -> (j2 < k)%nat -> G i2 j2 <> C0 ->
  exists th ph ga, in_situ_bwd_digital_batch m p k X G = Some (th, ph, ga) /\
  Forall2 (fun nd d => derivable_pt_lim (fun t => cost_batch m k G X (with_theta p (node_id nd) t)) (thetas p (node_id nd)) d) (column_order m) th /\
  Forall2 (fun nd d => derivable_pt_lim (fun t => cost_batch m k G X (with_phi p (node_id nd) t)) (phis p (node_id nd)) d) (column_order m) ph /\
  (forall r, (r < n_rails m)%nat -> derivable_pt_lim (fun t => cost_batch m k G X (with_gamma p r t)) (gammas p r) (ga r)).
Proof. exact (fun m p k X G i1 j1 i2 j2 H1 H2 H3 H4 => digital_grad_batch m p k X G i1 j1 i2 j2 (Build_clean m H1 H2 H3 H4)). Qed.
Print Assumptions C25_digital_batch_partial.
(** The two measurement schemes agree on every noiseless ideal mesh, also in style BOTTOM. *)
Theorem C25_schemes_agree : forall m p x g, wf_mesh m -> style m = TOP \/ style m = BOTTOM ->
  (forall e, In e (bs_errors m) -> e = (0, 0)) -> (forall l, In l (losses m) -> l = (0, 0)) ->
  in_situ_bwd_digital m p x g = in_situ_bwd m p x g.
Proof. exact digital_same. Qed.
Print Assumptions C25_schemes_agree.
