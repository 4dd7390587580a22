(** Instances for the grid design properties (C120-C126). *)
From Coq Require Import Reals List Arith ZArith Bool.
From Verif Require Import Cx Arr Model_yee Model_grid Model_design.
Local Open Scope R_scope.

(** A 10 x 10 grid of unit cells. *)
Definition g10 : gridp := mkGrid 2 (fun _ => 1) (fun a => match a with AZ => 1%Z | _ => 10%Z end).
(** Two waveguides of 2 x 2 cells, permittivity 12, one cell apart, centred on the grid, no substrate, no block. *)
Definition pair_design : design := mkDesign (mkBox (2, 2) (0, 0) 1) 12 None 1 0 1 None (0, 0) false 0.
(** How far the top of a cell is above the bottom of the grid, along its last axis. *)
Definition up (g : gridp) : axis := if Nat.eqb (g_ndim g) 3 then AZ else if Nat.eqb (g_ndim g) 2 then AY else AX.
Definition top (g : gridp) (i j k : Z) : R :=
  match up g with AX => (IZR i + 1) * g_spacing g AX | AY => (IZR j + 1) * g_spacing g AY | AZ => (IZR k + 1) * g_spacing g AZ end.
