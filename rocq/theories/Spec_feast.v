(** Vocabulary for the interval search for modes. *)
From Coq Require Import Reals Arith List.
From Verif Require Import Cx Arr Model_coupling Model_yee Spec_yee Model_mode Model_feast.
Local Open Scope R_scope.

(** An n x n matrix, and one of 2 x 2 blocks n x n, equal to its conjugate transpose. *)
Definition hermitian (n : nat) (M : nat -> nat -> C) : Prop := forall x y, (x < n)%nat -> (y < n)%nat -> M x y = Cconj (M y x).
Definition planar (a : axis) : Prop := a = AX \/ a = AY.
Definition hermitian2 (n : nat) (M : axis -> axis -> nat -> nat -> C) : Prop :=
  forall r c x y, planar r -> planar c -> (x < n)%nat -> (y < n)%nat -> M r c x y = Cconj (M c r y x).
(** A cross section: at least two cells along x and y, one along z. *)
Definition cross_section (q : mode_solver) : Prop := (2 <= q_shape q AX)%nat /\ (2 <= q_shape q AY)%nat /\ q_shape q AZ = 1%nat.
(** Element type of a matrix and of the arrays an eigensolver routine works on: complex or real, single or double precision. *)
Definition dtype_kind (d : dtype) : option (bool * bool) :=
  match d with Float32 => Some (false, true) | Float64 => Some (false, false) | Complex64 => Some (true, true) | Complex128 => Some (true, false) | OtherType => None end.
Definition routine_kind (r : routine) : bool * bool :=
  match r with SFeastSym => (false, true) | DFeastSym => (false, false) | CFeastHerm => (true, true) | ZFeastHerm => (true, false) end.
