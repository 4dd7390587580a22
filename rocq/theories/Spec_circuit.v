(** Small, model-independent specification vocabulary for the circuit properties. *)
From Coq Require Import Reals List.
From Verif Require Import Cx Arr.
Local Open Scope R_scope.

(** Total optical power on rails 0..n-1. *)
Definition power (n : nat) (v : vec) : R := Rsum n (fun i => Cn2 (v i)).

(** U^dagger U = 1 and U U^dagger = 1 on an n x n matrix. *)
Definition unitary (n : nat) (U : mat) : Prop :=
  forall i j, (i < n)%nat -> (j < n)%nat ->
    Csum n (fun k => Cconj (U k i) * U k j)%C = delta i j /\
    Csum n (fun k => U i k * Cconj (U j k))%C = delta i j.

(** Agreement on the rails 0..n-1. *)
Definition veq (n : nat) (v w : vec) : Prop := forall i, (i < n)%nat -> v i = w i.
Definition meq (n : nat) (a b : mat) : Prop := forall i j, (i < n)%nat -> (j < n)%nat -> a i j = b i j.

(** Matrix times vector, matrix product, identity. *)
Definition app (n : nat) (a : mat) (v : vec) : vec := fun i => Csum n (fun j => a i j * v j)%C.
Definition prod (n : nat) (a b : mat) : mat := fun i j => Csum n (fun k => a i k * b k j)%C.
Definition transpose (a : mat) : mat := fun i j => a j i.
Definition ident : mat := delta.

(** Conjugate transpose. *)
Definition dagger (a : mat) : mat := fun i j => Cconj (a j i).
