(** Vocabulary for C47, C49, C54, C65, C66. *)
From Coq Require Import Reals Arith.
From Verif Require Import Cx Arr Model_adj.
Local Open Scope R_scope.
(** Squared Frobenius norm: the total power of all columns. *)
Definition nn (n : nat) (v : mat) : R := Rsum n (fun j => Rsum n (fun i => Cn2 (v i j))).
(** Bilinear pairing of two arrays of n entries. *)
Definition dotn (n : nat) (g x : vec) : C := Csum n (fun r => (g r * x r)%C).
(** Entry positions inside an n x n matrix. *)
Definition positions_ok (n K : nat) (row col : nat -> nat) : Prop := forall k, (k < K)%nat -> (row k < n)%nat /\ (col k < n)%nat.
