(** Vocabulary for C144: independent draws and their expectations. *)
From Coq Require Import Reals List Arith.
From Verif Require Import Cx Arr Model_coupling Model_forward.
Local Open Scope R_scope.

(** [Q b a] turns a uniform number into a split ratio in [0, 1] whose average is b / (a + b), as the inverse incomplete beta function does
    ([avg] is the average over a uniform number). *)
Definition beta_draw (Q : R -> R -> R -> R) (avg : (R -> R) -> R) : Prop :=
  (forall b a u, 0 <= Q b a u <= 1) /\
  (forall b a c d, 0 < b -> 0 < a -> avg (fun u => c + d * Q b a u) = c + d * (b / (a + b))).
(** Average of f over N independent uniform numbers. *)
Fixpoint expect (avg : (R -> R) -> R) (N : nat) (f : (nat -> R) -> R) : R :=
  match N with O => f (fun _ => 0) | S k => avg (fun v => expect avg k (fun u => f (upd u k v))) end.
(** The power of a matrix entry. *)
Definition entry_power (o : option C) : R := match o with Some z => Cn2 z | None => 0 end.
(** The phases with these thetas. *)
Definition with_thetas (th : nat -> R) (p : params) : params := mkParams th (phis p) (gammas p).
