(** Model of ForwardMesh.rand_s and rand_theta (forward.py:114-130), drawn at construction (forward.py:57-60).  No proofs in this file.
    scipy's betaincinv is a parameter [Q]; np.random.rand(num_nodes) is the sequence [u]. *)
From Coq Require Import Reals List Arith.
From Verif Require Import Cx Arr Model_coupling Model_forward.
Local Open Scope R_scope.

(** forward.py:57-58: self.alpha, self.beta, in LIST order. *)
Definition alphas (m : mesh) : list nat := map alpha (nodes m).
Definition betas (m : mesh) : list nat := map beta (nodes m).
(** forward.py:121: betaincinv(self.beta, self.alpha, np.random.rand(self.num_nodes)) *)
Definition rand_s (Q : R -> R -> R -> R) (m : mesh) (u : nat -> R) : nat -> R :=
  fun k => Q (INR (nth k (betas m) 0%nat)) (INR (nth k (alphas m) 0%nat)) (u k).
(** forward.py:130: transmissivity_to_phase(self.rand_s(), self.mzi_terms) *)
Definition rand_theta (Q : R -> R -> R -> R) (m : mesh) (u : nat -> R) : nat -> R :=
  fun k => transmissivity_to_phase (rand_s Q m u k) (Some (mzi_terms (err_at m k))).
