(** Specification vocabulary for rectangular meshes: a grid of 2x2 couplers with a phase on every rail of every layer. *)
From Coq Require Import Reals List Arith ZArith Bool.
From Verif Require Import Cx Arr Model_coupling.
Local Open Scope R_scope.

(** Layer c: the phase [ph c r] on every rail r, then the coupler [blk c p] on rails (p, p + 1) for every p + c even, p + 1 < units. *)
Definition grid_layer (units : nat) (blk : nat -> nat -> mat2) (ph : nat -> nat -> R) (c : nat) (v : vec) : vec :=
  let w := fun r => (cis (ph c r) * v r)%C in
  fun r =>
    if Nat.eqb ((r + c) mod 2) 0 then (if Nat.ltb (S r) units then m11 (blk c r) * w r + m12 (blk c r) * w (S r) else w r)%C
    else match r with
         | O => w r
         | S p => (if Nat.ltb (S p) units then m21 (blk c p) * w p + m22 (blk c p) * w (S p) else w r)%C
         end.
(** Layers 0, 1, ..., k - 1. *)
Fixpoint grid_run (units : nat) (blk : nat -> nat -> mat2) (ph : nat -> nat -> R) (k : nat) (v : vec) : vec :=
  match k with O => v | S k' => grid_layer units blk ph k' (grid_run units blk ph k' v) end.
(** ... and the output phases. *)
Definition grid_transfer (units layers : nat) (blk : nat -> nat -> mat2) (ph : nat -> nat -> R) (gamma : nat -> R) (v : vec) : vec :=
  fun r => (cis (gamma r) * grid_run units blk ph layers v r)%C.
