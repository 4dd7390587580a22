(** Vocabulary for C91-C93: the misfit of a vector unit and its partial derivatives. *)
From Coq Require Import Reals List.
From Verif Require Import Cx Arr Model_coupling Model_forward.
Local Open Scope R_scope.

(** 2 - 2 Re of the last output: the squared distance between the output and the last basis vector, for an input of power 1. *)
Definition misfit (m : mesh) (n : nat) (x : vec) (p : params) : R :=
  match matrix_fn m false p x with Some y => 2 - 2 * re (y (n - 1)%nat) | None => 0 end.
(** Phase number a of the list theta_0 .. theta_(n-2), phi_0 .. phi_(n-2) increased by s. *)
Definition bump (n : nat) (p : params) (a : nat) (s : R) : params :=
  if Nat.ltb a (n - 1) then mkParams (upd (thetas p) a (thetas p a + s)) (phis p) (gammas p)
  else mkParams (thetas p) (upd (phis p) (a - (n - 1)) (phis p (a - (n - 1))%nat + s)) (gammas p).
(** d/du (d/ds g(s, u)) at (0, 0) exists and is h. *)
Definition mixed_partial (g : R -> R -> R) (h : R) : Prop :=
  exists g1, (forall u, derivable_pt_lim (fun s => g s u) 0 (g1 u)) /\ derivable_pt_lim g1 0 h.
(** h is the second partial derivative of the misfit by phases a and b at p. *)
Definition second_partial (m : mesh) (n : nat) (x : vec) (p : params) (a b : nat) (h : R) : Prop :=
  mixed_partial (fun s u => misfit m n x (bump n (bump n p a s) b u)) h.
(** The other phase of the same node: theta_i for phi_i, phi_i for theta_i. *)
Definition other (n a : nat) : nat := if Nat.ltb a (n - 1) then (a + (n - 1))%nat else (a - (n - 1))%nat.
(** Both thetas, or both phis. *)
Definition same_kind (n a b : nat) : Prop := (a < n - 1)%nat <-> (b < n - 1)%nat.
