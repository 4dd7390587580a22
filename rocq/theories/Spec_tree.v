(** What a nulling network on rails 0..n-1 is, independent of how it is generated. *)
From Coq Require Import Reals List ZArith Permutation.
From Verif Require Import Cx Arr Model_coupling Model_forward Spec_mesh.
Import ListNotations.

(** n-1 nodes with ids exactly 0..n-2; every rail but the last is the top port of exactly one node; ports in range;
    a rail that has been nulled (was a top port) is not used by any later column: if node [b] also touches the
    top rail of [a], then it does so as bottom port in a strictly earlier column. *)
Definition nulling_network (n : nat) (m : mesh) : Prop :=
  length (nodes m) = (n - 1)%nat /\
  Permutation (map node_id (nodes m)) (seq 0 (n - 1)) /\
  Permutation (map top (nodes m)) (seq 0 (n - 1)) /\
  (forall nd, In nd (nodes m) -> (top nd < bottom nd < n)%nat) /\
  (forall a b, In a (nodes m) -> In b (nodes m) -> bottom b = top a -> (column b < column a)%Z).
