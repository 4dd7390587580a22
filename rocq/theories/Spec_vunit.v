(** Vocabulary for vector units built from imperfect couplers: how the tree groups the input rails, and which splits a coupler with error e reaches. *)
From Coq Require Import Reals Arith.
From Verif Require Import Cx Arr.
Local Open Scope R_scope.
(** Groups of consecutive rails (first rail, size) obtained from (a0, n0) by repeated halving. *)
Inductive halving (a0 n0 : nat) : nat -> nat -> Prop :=
| halving_all : halving a0 n0 a0 n0
| halving_top : forall a k, halving a0 n0 a k -> (2 <= k)%nat -> halving a0 n0 a (k / 2)
| halving_bottom : forall a k, halving a0 n0 a k -> (2 <= k)%nat -> halving a0 n0 (a + k / 2) (k - k / 2).
(** A node combines the rails [a, a + h) with the rails [a + h, a + k): halves of a group (balanced tree), or one more rail (linear chain). *)
Definition combines (balanced : bool) (n a h k : nat) : Prop :=
  if balanced then halving 0 n a k /\ (2 <= k)%nat /\ h = (k / 2)%nat else a = 0%nat /\ (2 <= k <= n)%nat /\ h = (k - 1)%nat.
(** Power of the vector on the rails [a, a + n). *)
Definition group_power (v : vec) (a n : nat) : R := Rsum n (fun i => Cn2 (v (a + i)%nat)).
(** At every node the share of the upper group is at most cos^2(2 e), the largest share an MZI with coupler errors e can move to its
    other port (up to the guard eps of direct_transmissivity, once per rail). *)
Definition reachable_splits (balanced : bool) (eps e : R) (n : nat) (v : vec) : Prop := forall a h k, combines balanced n a h k ->
  group_power v a h = 0 \/ group_power v a h <= cos (2 * e) ^ 2 * (group_power v a k - INR n * eps).
