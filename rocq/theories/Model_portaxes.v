(** Model of how the axis of a port is read off its size: sim.py:43-51 prop_axis, grid.py:229-239 view_fn, mode.py:502-504 place,
    sim.py:148 (the size is the port's size times profile_size_factor).  No proofs in this file.
    Simplification: exact arithmetic. *)
From Coq Require Import Reals Arith Bool.
From Verif Require Import Model_yee Model_grid.
Local Open Scope R_scope.

Definition size_along (s : R * R * R) (a : axis) : R := match s, a with (x, _, _), AX => x | (_, y, _), AY => y | (_, _, z), AZ => z end.
Definition is_zero (x : R) : bool := if Req_EM_T x 0 then true else false.
(** sim.py:51 and mode.py:504: np.where(np.array(size) == 0)[0][0]; None = IndexError. *)
Definition prop_axis (s : R * R * R) : option axis :=
  if is_zero (size_along s AX) then Some AX else if is_zero (size_along s AY) then Some AY else if is_zero (size_along s AZ) then Some AZ else None.
(** grid.py:229-239: the last of the first ndim axes along which the size is 0, else axis 0; None = ValueError (all three sizes nonzero). *)
Definition view_axis (ndim : nat) (s : R * R * R) : option axis :=
  if (is_zero (size_along s AX) || is_zero (size_along s AY) || is_zero (size_along s AZ))%bool then
    let step (v : axis) (i : nat) (a : axis) := if (Nat.ltb i ndim && is_zero (size_along s a))%bool then a else v in
    Some (step (step (step AX 0%nat AX) 1%nat AY) 2%nat AZ)
  else None.
(** sim.py:147-149: the size handed to modes for a port (angle, width, height). *)
Definition port_region (factor a w h : R) : option (R * R * R) :=
  match port_size a w h with Some (x, y, z) => Some (x * factor, y * factor, z * factor) | None => None end.
