(** The real cost whose gradient in-situ backpropagation is meant to measure: Re(sum_i g_i y_i) for the output y of the
    mesh (g is the cotangent handed to the layer). *)
From Coq Require Import Reals List.
From Verif Require Import Cx Arr Model_coupling Model_forward.
Local Open Scope R_scope.
Definition cost (m : mesh) (g x : vec) (p : params) : R :=
  match matrix_fn m false p x with
  | Some y => re (Csum (n_rails m) (fun i => g i * y i)%C)
  | None => 0
  end.
(** The same for k input columns and k cotangent columns. *)
Definition cost_batch (m : mesh) (k : nat) (G X : mat) (p : params) : R :=
  Rsum k (fun j => cost m (fun i => G i j) (fun i => X i j) p).
(** The parameters with one phase replaced. *)
Definition with_theta (p : params) (k : nat) (t : R) : params := mkParams (upd (thetas p) k t) (phis p) (gammas p).
Definition with_phi (p : params) (k : nat) (t : R) : params := mkParams (thetas p) (upd (phis p) k t) (gammas p).
Definition with_gamma (p : params) (k : nat) (t : R) : params := mkParams (thetas p) (phis p) (upd (gammas p) k t).
(** The nodes sorted by column (stable). *)
From Coq Require Import ZArith.
Definition column_order (m : mesh) : list node :=
  concat (map (fun c => filter (fun nd => Z.eqb (column nd) (Z.of_nat c)) (nodes m))
              (seq 0 (Z.to_nat (num_columns m)))).
