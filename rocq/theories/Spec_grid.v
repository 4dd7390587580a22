(** Vocabulary for the grid, box and design-transform properties. *)
From Coq Require Import Reals ZArith Bool List.
From Verif Require Import Cx Arr Model_yee Model_grid.
Local Open Scope R_scope.

Definition zcoord (a : axis) (i j k : Z) : Z := match a with AX => i | AY => j | AZ => k end.
(** The index box requested along axis a: round(size/spacing) cells (one for a zero size) starting half that number below
    round(center/spacing); cell 0 along the axes the grid does not have. *)
Definition box_len (g : gridp) (size : axis -> R) (a : axis) : Z :=
  if Nat.ltb (axis_nat a) (g_ndim g) then Z.max 1 (around (size a / g_spacing g a)) else 1%Z.
Definition box_lo (g : gridp) (center size : axis -> R) (a : axis) : Z :=
  if Nat.ltb (axis_nat a) (g_ndim g)
  then (around (center a / g_spacing g a) - Z.max 0 (around (size a / g_spacing g a)) / 2)%Z else 0%Z.
(** The box lies inside the grid. *)
Definition box_fits (g : gridp) (center size : axis -> R) : Prop :=
  forall a, (0 <= box_lo g center size a /\ box_lo g center size a + box_len g size a <= g_shape g a)%Z.
Definition in_box (g : gridp) (center size : axis -> R) (i j k : Z) : Prop :=
  forall a, (box_lo g center size a <= zcoord a i j k < box_lo g center size a + box_len g size a)%Z.
Definition cell (g : gridp) (i j k : Z) : Prop := forall a, (0 <= zcoord a i j k < g_shape g a)%Z.

(** A w x h box of an array: pixel i of spacing d covers [i d, (i + 1) d]. *)
Definition edge_in (lo hi d : R) (i : Z) : Prop := lo < (IZR i + 1) * d <= hi.

(** Reflections of an n x m array. *)
Definition sym_x (n m : Z) (x : arr2) : Prop := forall i j, (0 <= i < n)%Z -> (0 <= j < m)%Z -> x (n - 1 - i)%Z j = x i j.
Definition sym_y (n m : Z) (x : arr2) : Prop := forall i j, (0 <= i < n)%Z -> (0 <= j < m)%Z -> x i (m - 1 - j)%Z = x i j.
Definition sym_diag (n m : Z) (x : arr2) : Prop := forall i j, (0 <= i < n)%Z -> (0 <= j < m)%Z -> x j i = x i j.
Definition sym_anti (n m : Z) (x : arr2) : Prop := forall i j, (0 <= i < n)%Z -> (0 <= j < m)%Z -> x (n - 1 - j)%Z (n - 1 - i)%Z = x i j.
(** A density array. *)
Definition in01 (n m : Z) (x : arr2) : Prop := forall i j, (0 <= i < n)%Z -> (0 <= j < m)%Z -> 0 <= x i j <= 1.

(** z is the integer nearest to x; of two equally near ones, the even one. *)
Definition nearest_even (x : R) (z : Z) : Prop := Rabs (x - IZR z) < 1 / 2 \/ (Rabs (x - IZR z) = 1 / 2 /\ Z.even z = true).
