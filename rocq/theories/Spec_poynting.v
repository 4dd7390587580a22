(** Vocabulary for C65 and C69: fields averaged onto cell corners, with periodic wrap-around. *)
From Coq Require Import Reals Arith.
From Verif Require Import Cx.
(** the cyclic predecessor of i among 0 .. n-1 *)
Definition before (n i : nat) : nat := Nat.modulo (i + (n - 1)) n.
(** mean of a sample and its predecessor along the first / second transverse direction *)
Definition mean_first (n : nat) (f : nat -> nat -> C) (i j : nat) : C := ((f i j + f (before n i) j) * RtoC (/ 2))%C.
Definition mean_second (m : nat) (f : nat -> nat -> C) (i j : nat) : C := ((f i j + f i (before m j)) * RtoC (/ 2))%C.
