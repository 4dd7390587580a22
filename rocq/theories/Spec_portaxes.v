(** Vocabulary: the axis a port faces.  Angle 0 and 180 degrees: along x; 90 and 270: along y (multiples of 360 added). *)
From Coq Require Import Reals ZArith.
From Verif Require Import Model_yee.
Local Open Scope R_scope.
Definition faces (a : R) (ax : axis) : Prop :=
  match ax with AX => exists z, a = 180 * IZR z | AY => exists z, a = 180 * IZR z + 90 | AZ => False end.
