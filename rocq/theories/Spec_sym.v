(** Symmetries of the periodic FDTD grid: shifting, mirroring, time reversal, change of unit. *)
From Coq Require Import Reals List Arith.
From Verif Require Import Cx Arr Model_yee Spec_yee Model_fdtd Spec_fdtd.
Import ListNotations.
Local Open Scope R_scope.

(** The value of an array at (i, j, k) with the index along axis a replaced by m. *)
Definition pick {T : Type} (a : axis) (f : nat -> nat -> nat -> T) (i j k m : nat) : T :=
  match a with AX => f m j k | AY => f i m k | AZ => f i j m end.
(** An array read through a map q of the indices along axis a. *)
Definition through {T : Type} (a : axis) (q : nat -> nat) (f : nat -> nat -> nat -> T) : nat -> nat -> nat -> T :=
  fun i j k => pick a f i j k (q (coord a i j k)).

(** Everything moved by d cells along axis a, periodically (np.roll by -d). *)
Definition moved {T : Type} (s : shape3) (a : axis) (d : nat) : (nat -> nat -> nat -> T) -> nat -> nat -> nat -> T :=
  through a (fun i => ((i + d) mod s a)%nat).
Definition moved_v (s : shape3) (a : axis) (d : nat) (f : vfld) : vfld := fun c => moved s a d (f c).
Definition moved_state (s : shape3) (a : axis) (d : nat) (st : fstate) : fstate := mkState (moved_v s a d (f_e st)) (moved_v s a d (f_h st)).
Definition moved_source (s : shape3) (a : axis) (d : nat) (x : source) : source :=
  mkSource (option_map (moved_v s a d) (src_e x)) (option_map (moved_v s a d) (src_h x)) (fun c => moved s a d (src_region x c)).
Definition moved_grid (a : axis) (d : nat) (g : fgrid) : fgrid := mkGrid (g_shape g) (g_ndim g) (g_spacing g) (moved (g_shape g) a d (g_eps g)).

(** Mirror images along axis a.  Cell i reaches from edge i to edge i + 1: cells and centred components go from i to n - 1 - i, components
    on the edges from i to n - i (mod n).  E_a is centred along a, the other two E components sit on the edges; H the other way round.
    E is a vector (its component along a changes sign), H a pseudovector (the other two do). *)
Definition centre_image (n i : nat) : nat := (n - 1 - i mod n)%nat.
Definition edge_image (n i : nat) : nat := ((n - i mod n) mod n)%nat.
Definition axis_eqb (a b : axis) : bool := match a, b with AX, AX | AY, AY | AZ, AZ => true | _, _ => false end.
Definition mirror_e (s : shape3) (a : axis) (e : vfld) : vfld := fun c i j k =>
  if axis_eqb c a then (- through a (centre_image (s a)) (e c) i j k)%C else through a (edge_image (s a)) (e c) i j k.
Definition mirror_h (s : shape3) (a : axis) (h : vfld) : vfld := fun c i j k =>
  if axis_eqb c a then through a (edge_image (s a)) (h c) i j k else (- through a (centre_image (s a)) (h c) i j k)%C.
Definition mirror_state (s : shape3) (a : axis) (st : fstate) : fstate := mkState (mirror_e s a (f_e st)) (mirror_h s a (f_h st)).
Definition mirror_grid (a : axis) (g : fgrid) : fgrid := mkGrid (g_shape g) (g_ndim g) (g_spacing g) (through a (centre_image (g_shape g a)) (g_eps g)).
(** The mirror image of an electric current source. *)
Definition mirror_current (s : shape3) (a : axis) (x : source) : source :=
  mkSource (option_map (mirror_e s a) (src_e x)) None
    (fun c i j k => through a (if axis_eqb c a then centre_image (s a) else edge_image (s a)) (src_region x c) i j k).

(** Electric current sources only, and the same currents with the opposite sign. *)
Definition electric (l : list source) : Prop := Forall (fun x => src_h x = None) l.
Definition opposite (x : source) : source := mkSource (option_map (fun v c i j k => - v c i j k)%C (src_e x)) (src_h x) (src_region x).
Definition neg (f : vfld) : vfld := fun c i j k => (- f c i j k)%C.

(** The same grid in a unit of length u times smaller. *)
Definition scaled_grid (u : R) (g : fgrid) : fgrid := mkGrid (g_shape g) (g_ndim g) (fun a => u * g_spacing g a) (g_eps g).
Definition scaled_source (u : R) (x : source) : source :=
  mkSource (option_map (fun v c i j k => RtoC u * v c i j k)%C (src_e x)) (option_map (fun v c i j k => RtoC u * v c i j k)%C (src_h x)) (src_region x).
