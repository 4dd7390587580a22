(** Vocabulary for parallel nullification (C83 - C85). *)
From Coq Require Import Reals List ZArith.
From Verif Require Import Cx Arr Model_coupling Model_forward.
Import ListNotations.
Local Open Scope R_scope.

(** Two meshes with the same wiring (node numbers, rails, columns), possibly different errors, losses, styles. *)
Definition wiring (nd : node) : nat * nat * nat * Z := (node_id nd, top nd, bottom nd, column nd).
Definition same_wiring (a b : mesh) : Prop :=
  map wiring (nodes a) = map wiring (nodes b) /\ n_rails a = n_rails b /\ num_columns a = num_columns b.
(** Rail i is the lower rail of a node in column c. *)
Definition lower_rail (m : mesh) (c : nat) (i : nat) : Prop :=
  exists nd, In nd (nodes m) /\ column nd = Z.of_nat c /\ bottom nd = i.
(** The fraction of the power entering the upper rail that the programmed node k sends to its lower rail. *)
Definition crossing (m : mesh) (p : params) (k : nat) : R := Cn2 (t12 (mzis m false p k)).
