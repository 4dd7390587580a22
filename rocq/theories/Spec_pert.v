(** Vocabulary for how the propagation constant of a mode responds to the wavelength and to the permittivity. *)
From Coq Require Import Reals Arith.
From Verif Require Import Cx Arr Model_yee Spec_yee Model_coupling Model_fdfd Model_mode Spec_mode Spec_orth.
Local Open Scope R_scope.

(** The permittivity seen by component c of the electric field of cell (i, j, k): the mean over the cells around that edge (the cell and its
    neighbour below along y for c = x, along x for c = y, and the four of them for c = z), indices wrapping around. *)
Definition below (n m : nat) : nat := match m with O => (n - 1)%nat | S m' => m' end.
Definition edge_eps (s : shape3) (p : rfld) (c : axis) : rfld := fun i j k =>
  match c with
  | AX => (p i j k + p i (below (s AY) j) k) / 2
  | AY => (p i j k + p (below (s AX) i) j k) / 2
  | AZ => (p i j k + p (below (s AX) i) j k + p i (below (s AY) j) k + p (below (s AX) i) (below (s AY) j) k) / 4
  end.
(** Sum over components and cells of w |f|^2. *)
Definition weighted_sq (s : shape3) (w : axis -> rfld) (f : vfld) : R :=
  re (vinner s (fun c i j k => RtoC (w c i j k) * f c i j k)%C f).
(** Twice the real power of a mode. *)
Definition power2 (q : mode_solver) (m : mode2) : R := 2 * re (cross_power (q_shape q) (lib_e q m) (lib_h q m)).
(** Continuity at t0 of a complex-valued function, and of every entry of a field. *)
Definition ccont (f : R -> C) (t0 : R) : Prop := continuity_pt (fun t => re (f t)) t0 /\ continuity_pt (fun t => im (f t)) t0.
Definition field_cont (s : shape3) (F : R -> vfld) (t0 : R) : Prop := forall c i j k, in_grid s i j k -> ccont (fun t => F t c i j k) t0.
(** A family of solvers on one grid, for parameters within r of t0, with one mode of each. *)
Definition mode_family (q : R -> mode_solver) (m : R -> mode2) (t0 r : R) : Prop := 0 < r /\
  forall t, Rabs (t - t0) < r -> q_shape (q t) = q_shape (q t0) /\ q_h (q t) = q_h (q t0) /\ q_k0 (q t) <> 0 /\ pos_eps (q t) /\ is_mode2 (q t) (m t).
(** 1-d cross sections: sum over the cells of w |v|^2, the raveled array v. *)
Definition weighted_sq1 (q : mode_solver) (w : rfld) (v : vec) : R :=
  re (inner (q_shape q) (fun i j k => RtoC (w i j k) * unravel_f (q_shape q) v i j k)%C (unravel_f (q_shape q) v)).
(** A family of solvers on one 1-d grid with one mode of each, and its array continuous at t0. *)
Definition mode_family1 (q : R -> mode_solver) (beta : R -> R) (v : R -> vec) (t0 r : R) : Prop := 0 < r /\
  (forall t, Rabs (t - t0) < r -> q_shape (q t) = q_shape (q t0) /\ q_h (q t) = q_h (q t0) /\ 0 < beta t /\ eigen1 (q t) (RtoC (beta t * beta t)) (v t)) /\
  (forall x, (x < q_n (q t0))%nat -> ccont (fun t => v t x) t0) /\ nonzero (q_n (q t0)) (v t0).
(** All entries real and positive, like the array of a fundamental mode. *)
Definition positive_array (n : nat) (v : vec) : Prop := forall x, (x < n)%nat -> 0 < re (v x) /\ im (v x) = 0.
