(** Specification vocabulary for FDTD with PML: distances on the periodic grid, local agreement, superposition, the layers. *)
From Coq Require Import Reals List Arith.
From Verif Require Import Cx Arr Model_yee Spec_yee Model_fdtd Spec_fdtd Model_fdfd Model_fdtdpml.
Import ListNotations.
Local Open Scope R_scope.

(** Distance between two indices on a ring of n cells, and cells at most r steps away along each axis. *)
Definition ring_dist (n x y : nat) : nat := Nat.min (Nat.max x y - Nat.min x y) (n - (Nat.max x y - Nat.min x y)).
Definition near (s : shape3) (r i j k i' j' k' : nat) : Prop :=
  in_grid s i' j' k' /\ (ring_dist (s AX) i i' <= r)%nat /\ (ring_dist (s AY) j j' <= r)%nat /\ (ring_dist (s AZ) k k' <= r)%nat.
(** A set of cells; equality of data on it. *)
Definition cellset := nat -> nat -> nat -> Prop.
Definition agree_v (S : cellset) (f f' : vfld) : Prop := forall c i j k, S i j k -> f c i j k = f' c i j k.
Definition agree_m (S : cellset) (m m' : mem) : Prop := forall r n i j k, S i j k -> m r n i j k = m' r n i j k.
Definition agree_state (S : cellset) (a b : pstate) : Prop :=
  agree_v S (ps_e a) (ps_e b) /\ agree_v S (ps_h a) (ps_h b) /\ agree_m S (ps_psi_e a) (ps_psi_e b) /\ agree_m S (ps_psi_h a) (ps_psi_h b).
Definition agree_opt (S : cellset) (a b : option vfld) : Prop :=
  match a, b with None, None => True | Some v, Some w => agree_v S v w | _, _ => False end.
Definition agree_source (S : cellset) (a b : source) : Prop :=
  (forall c i j k, S i j k -> src_region a c i j k = src_region b c i j k) /\
  agree_opt S (src_e a) (src_e b) /\ agree_opt S (src_h a) (src_h b).
Definition agree_schedule (S : cellset) : list (list source) -> list (list source) -> Prop := Forall2 (Forall2 (agree_source S)).
(** The same grid with possibly another permittivity, equal on S. *)
Definition agree_grid (S : cellset) (g g' : fgrid) : Prop :=
  g_shape g = g_shape g' /\ g_ndim g = g_ndim g' /\ g_spacing g = g_spacing g' /\
  (forall i j k, S i j k -> g_eps g i j k = g_eps g' i j k).

(** What the constructor guarantees about the layers (grid.py:346-351). *)
Definition wf_pml (g : fgrid) (p : fpml) : Prop := forall a, (0 < p_cells p a)%nat /\ (2 * p_cells p a < g_shape g a)%nat.
(** Absorbing parameters: reflection below one, positive correction. *)
Definition absorbing (p : fpml) : Prop := (0 < p_exp p)%nat /\ p_logr p < 0 /\ 0 < p_corr p.
(** Cells more than m cells away from every layer. *)
Definition deep (g : fgrid) (p : fpml) (m i j k : nat) : Prop :=
  forall a, (p_cells p a + m <= coord a i j k)%nat /\ (coord a i j k + m + p_cells p a < g_shape g a)%nat.
(** The fields of a state, without the layers' memories. *)
Definition fields (st : pstate) : fstate := mkState (ps_e st) (ps_h st).

(** Superposition of states with PML. *)
Definition lin_mem (al be : C) (a b : mem) : mem := fun r n i j k => (al * a r n i j k + be * b r n i j k)%C.
Definition lin_pstate (al be : C) (a b : pstate) : pstate :=
  mkPstate (lin al be (ps_e a) (ps_e b)) (lin al be (ps_h a) (ps_h b))
    (lin_mem al be (ps_psi_e a) (ps_psi_e b)) (lin_mem al be (ps_psi_h a) (ps_psi_h b)).

(** Constant fields and an empty memory. *)
Definition uniform_state (e h : axis -> C) : pstate :=
  mkPstate (fun c _ _ _ => e c) (fun c _ _ _ => h c) zero_mem zero_mem.
(** A three-dimensional 10 x 10 x 10 vacuum with 4 PML cells on each side and the default parameters (3, -25, 1). *)
Definition cube10 : fgrid := mkGrid (fun _ => 10%nat) 3 (fun _ => 1) (fun _ _ _ => 1).
Definition pml4 : fpml := mkPml (fun _ => 4%nat) 3 (-25) 1.

(** ** What one step does in the layers (C152).  Layers: the first and the last t cells of each axis (t = p_cells).
    Depth of sample x of an axis of n cells into a layer, as a fraction (0 outside): edges for the E update, centres for the H update. *)
Definition depth (n t : nat) (edge : bool) (x : nat) : R :=
  if Nat.ltb x t then (if edge then INR (t - x) / INR t else INR (t - x) / (INR t + 1 / 2))
  else if Nat.leb (n - t) x then (if edge then INR (x - (n - t)) / INR t else INR (x - (n - t)) / (INR t - 1 / 2)) else 0.
(** The graded conductivity, and the coefficients of the derivative along [a] at a cell. *)
Definition layer_sigma (g : fgrid) (p : fpml) (edge : bool) (a : axis) (x : nat) : R :=
  (INR (p_exp p) + 1) * - p_logr p / (2 * p_corr p) * depth (g_shape g a) (p_cells p a) edge x ^ p_exp p.
Definition layer_b (g : fgrid) (p : fpml) (edge : bool) (a : axis) (x : nat) : R := exp (- (layer_sigma g p edge a x + / 100000000) * dt_of g).
Definition layer_c (g : fgrid) (p : fpml) (edge : bool) (a : axis) (x : nat) : R :=
  (layer_b g p edge a x - 1) * layer_sigma g p edge a x / (layer_sigma g p edge a x + / 100000000).
(** The derivative along [a] of component [b] as a layer changes it: (1 + c) times the present one plus b c times that of the previous step.
    Backward differences (on the edges) of H for the E update, forward differences (on the centres) of E for the H update. *)
Definition yee_quot (g : fgrid) (of_h : bool) (a : axis) (f : fld) : fld :=
  (if of_h then bwd_quot else fwd_quot) (g_shape g) (fun a _ => RtoC (g_spacing g a)) (fun _ => C1) a f.
Definition damped (g : fgrid) (p : fpml) (of_h : bool) (now before : vfld) (a b : axis) (i j k : nat) : C :=
  let x := coord a i j k in
  (RtoC (1 + layer_c g p of_h a x) * yee_quot g of_h a (now b) i j k + RtoC (layer_b g p of_h a x * layer_c g p of_h a x) * yee_quot g of_h a (before b) i j k)%C.
(** The component [c] of a curl, from the derivative D a b along a of component b. *)
Definition rot (D : axis -> axis -> C) (c : axis) : C :=
  match c with AX => (D AY AZ - D AZ AY)%C | AY => (D AZ AX - D AX AZ)%C | AZ => (D AX AY - D AY AX)%C end.
