(** What the figures of merit should be, independent of the code. *)
From Coq Require Import Reals List Arith.
From Verif Require Import Cx Arr Model_metric.
Import ListNotations.
Local Open Scope R_scope.

(** Total power of n amplitudes. *)
Definition total_power (n : nat) (x : vec) : R := Rsum n (fun i => Cn2 (x i)).
(** The weight a dictionary asks for at (port, mode): that of the last entry with this key, 0 without one. *)
Fixpoint wanted (d : list (dkey * C)) (k : nat * nat) (acc : C) : C :=
  match d with
  | [] => acc
  | (DName p, w) :: r => wanted r k (if (Nat.eqb p (fst k) && Nat.eqb 0 (snd k))%bool then w else acc)
  | (DPair p m, w) :: r => wanted r k (if (Nat.eqb p (fst k) && Nat.eqb m (snd k))%bool then w else acc)
  end.
(** The desired amplitudes in the order of the measured modes. *)
Definition desired (mi : list (nat * nat)) (d : list (dkey * C)) : vec := fun i => wanted d (nth i mi (O, O)) C0.
