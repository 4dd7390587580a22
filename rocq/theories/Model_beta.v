(** Model of beta_pdf and beta_phase (simphox/utils.py:304-311) for integer a, b >= 1, the values the meshes use (ForwardMesh.alpha, beta).
    scipy's beta function is the parameter [B].  No proofs in this file. *)
From Coq Require Import Reals.
Local Open Scope R_scope.

(** utils.py:304-305 *)
Definition beta_pdf (B : nat -> nat -> R) (x : R) (a b : nat) : R := x ^ (a - 1) * (1 - x) ^ (b - 1) / B a b.
(** utils.py:308-310 *)
Definition beta_phase (B : nat -> nat -> R) (theta : R) (a b : nat) : R :=
  let x := cos (theta / 2) ^ 2 in beta_pdf B x a b * sin (theta / 2) * cos (theta / 2) / PI.
