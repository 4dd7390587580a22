(** Model of ForwardMesh.matrix_opt (forward.py:623-652).  No proofs in this file.
    Simplifications: exact reals; matrix_fn(use_jax=True) is the NumPy matrix (they agree, C07); jax.value_and_grad is a parameter [grad] (the
    partial derivatives of the cost wherever they exist); adam of jax.example_libraries.optimizers with its defaults b1 = 0.9, b2 = 0.999,
    eps = 1e-8, applied to each phase separately. *)
From Coq Require Import Reals List Arith.
From Verif Require Import Cx Arr Model_coupling Model_forward Model_adj.
Local Open Scope R_scope.

(** forward.py:638-642 cost_fn: normalized_error(uopt)(matrix_fn(params)); None when the mesh raises or the error is NaN. *)
Definition mesh_matrix (m : mesh) (p : params) : mat := fun i j => match matrix m false p i j with Some z => z | None => C0 end.
Definition opt_cost (m : mesh) (u : mat) (p : params) : option R :=
  match matrix_fn m false p (basis 0) with None => None | Some _ => normalized_error (n_rails m) u (mesh_matrix m p) end.

(** One phase under adam: its value and the two moments. *)
Record moments := mkMom { m_x : R; m_1 : R; m_2 : R }.
(** adam(step_size).init *)
Definition adam_init (x : R) : moments := mkMom x 0 0.
(** adam(step_size).update(i, g, state) *)
Definition adam_update (step_size : R) (i : nat) (g : R) (s : moments) : moments :=
  let m := (1 - 9 / 10) * g + 9 / 10 * m_1 s in
  let v := (1 - 999 / 1000) * (g * g) + 999 / 1000 * m_2 s in
  let mhat := m / (1 - (9 / 10) ^ (i + 1)) in
  let vhat := v / (1 - (999 / 1000) ^ (i + 1)) in
  mkMom (m_x s - step_size * mhat / (sqrt vhat + / 10 ^ 8)) m v.

(** The optimiser state: the thetas and phis of the nodes, the gammas of the rails. *)
Record opt_state := mkOpt { o_theta : nat -> moments; o_phi : nat -> moments; o_gamma : nat -> moments }.
(** get_params(state) *)
Definition get_params (s : opt_state) : params := mkParams (fun k => m_x (o_theta s k)) (fun k => m_x (o_phi s k)) (fun k => m_x (o_gamma s k)).
(** forward.py:645-646: init from the given params (the mesh's own when None). *)
Definition opt_init (own : params) (given : option params) : opt_state :=
  let p := match given with Some q => q | None => own end in
  mkOpt (fun k => adam_init (thetas p k)) (fun k => adam_init (phis p k)) (fun k => adam_init (gammas p k)).
(** forward.py:648-650 update_fn: (v, new state). *)
Definition update_fn (cost : params -> option R) (grad : params -> params) (step_size : R) (i : nat) (s : opt_state) : option R * opt_state :=
  let p := get_params s in let g := grad p in
  (cost p, mkOpt (fun k => adam_update step_size i (thetas g k) (o_theta s k)) (fun k => adam_update step_size i (phis g k) (o_phi s k))
                 (fun k => adam_update step_size i (gammas g k) (o_gamma s k))).
