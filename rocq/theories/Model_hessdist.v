(** Model of hessian_distribution in simphox/circuit/vector.py.  No proofs in this file. *)
From Coq Require Import Reals List Arith.
From Verif Require Import Cx Arr Model_coupling Model_forward Model_vector Model_hess.
Import ListNotations.
Local Open Scope R_scope.

(** vector.py:333 hessian_vector_unit(...)[0]: indexing the array gives its first row, 2 (n - 1) numbers. *)
Definition first_row (n : nat) (h : rmat) : list R := map (h 0%nat) (seq 0 (2 * (n - 1))).
(** vector.py:317-335 hessian_distribution; [draws] are the vectors random_vector returned.  The result is the array of the samples. *)
Fixpoint hessian_distribution (eps : R) (n : nat) (balanced : bool) (draws : list vec) : option (list (list R)) :=
  match draws with
  | [] => Some []
  | v :: rest =>
      match hessian_vector_unit eps v n balanced, hessian_distribution eps n balanced rest with
      | Some h, Some l => Some (first_row n h :: l)
      | _, _ => None
      end
  end.
