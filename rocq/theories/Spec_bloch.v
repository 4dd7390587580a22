(** Instance for C37: a grid with a Bloch phase. *)
From Coq Require Import Reals.
From Verif Require Import Cx Arr Model_yee Model_fdfd.
Local Open Scope R_scope.
(** Two cells of size 1 along x, permittivity 1, Bloch factor p along x. *)
Definition bloch_cells (p : C) (k0 : R) : fdfd :=
  mkFdfd (fun a => match a with AX => 2 | _ => 1 end%nat) (uniform_dx (fun _ => 1)) (uniform_dx (fun _ => 1))
    (fun a => match a with AX => p | _ => C1 end) k0 (fun _ _ _ _ => 1).
