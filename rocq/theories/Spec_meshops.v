(** Specification vocabulary for mesh operations. *)
From Coq Require Import Reals List ZArith.
From Verif Require Import Cx Arr Spec_circuit Model_coupling Model_forward Spec_mesh.
Import ListNotations.
Local Open Scope R_scope.

(** A mesh as its constructor leaves it: cached attributes follow the nodes and column labels are in range. *)
Definition fresh (m : mesh) : Prop :=
  bs_errors m = map bs_error (nodes m) /\ losses m = map loss (nodes m) /\
  (forall nd, In nd (nodes m) -> (0 <= column nd < num_columns m)%Z /\ n_of nd = n_rails m) /\ (0 < num_columns m)%Z.
(** Parameters of a followed by those of b; the output phases are b's. *)
Definition join_params (na : nat) (pa pb : params) : params :=
  mkParams (fun k => if Nat.ltb k na then thetas pa k else thetas pb (k - na)) (fun k => if Nat.ltb k na then phis pa k else phis pb (k - na))
    (gammas pb).
Definition no_gammas (p : params) : params := mkParams (thetas p) (phis p) (fun _ => 0).
(** Every node has the same errors and losses. *)
Definition uniform_errors (m : mesh) : Prop := exists e l, forall nd, In nd (nodes m) -> bs_error nd = e /\ loss nd = l.
Definition restyled (m : mesh) (s : phase_style) : mesh :=
  mkMesh (nodes m) s (node_idxs m) (n_rails m) (bs_errors m) (losses m) (column_by_node m) (num_columns m).
(** The singular value decomposition of an m x n matrix. *)
Definition svd_mn (m n : nat) (A : mat) (s : mat * (nat -> R) * mat) : Prop :=
  let '(l, d, r) := s in
  unitary m l /\ unitary n r /\ (forall k, (k < Nat.min m n)%nat -> 0 <= d k) /\
  (forall k, (S k < Nat.min m n)%nat -> d (S k) <= d k) /\
  forall i j, (i < m)%nat -> (j < n)%nat -> A i j = Csum (Nat.min m n) (fun k => l i k * RtoC (d k) * r k j)%C.
(** Meshes one after the other: ids and columns offset by what comes before. *)
Fixpoint stacked (d : nat) (c : Z) (ms : list mesh) : list mesh :=
  match ms with
  | [] => []
  | m :: r => offset_column (offset m d) c :: stacked (d + length (nodes m)) (c + num_columns m) r
  end.
(** Their parameters, concatenated; only the last mesh has output phases. *)
Fixpoint join_all (l : list (mesh * params)) : params :=
  match l with
  | [] => mkParams (fun _ => 0) (fun _ => 0) (fun _ => 0)
  | [(_, p)] => p
  | (m, p) :: r => join_params (length (nodes m)) p (join_all r)
  end.
(** Send a vector through the meshes in turn. *)
Fixpoint chain (l : list (mesh * params)) (x : vec) : option vec :=
  match l with
  | [] => Some x
  | [(m, p)] => matrix_fn m false p x
  | (m, p) :: r => match matrix_fn m false (no_gammas p) x with Some y => chain r y | None => None end
  end.
