(** Vocabulary for C147. *)
From Coq Require Import Reals.
From Coquelicot Require Import Coquelicot.
Local Open Scope R_scope.

(** The beta function, and the beta distribution's probability of [0, x]. *)
Definition beta_function (B : nat -> nat -> R) : Prop :=
  forall a b, (1 <= a)%nat -> (1 <= b)%nat -> B a b = RInt (fun x => x ^ (a - 1) * (1 - x) ^ (b - 1)) 0 1.
Definition beta_cdf (a b : nat) (x : R) : R :=
  RInt (fun y => y ^ (a - 1) * (1 - y) ^ (b - 1)) 0 x / RInt (fun y => y ^ (a - 1) * (1 - y) ^ (b - 1)) 0 1.
