(** Model of SimGrid.decorate (simphox/sim.py), Component.from_fdfd (simphox/circuit/component.py) with the part of
    SimGrid.get_sim_sparams_fn that it uses, and shift_slice (simphox/utils.py).  No proofs in this file. *)
From Coq Require Import Reals List Arith ZArith Bool.
From Verif Require Import Cx Arr Model_yee.
Import ListNotations.
Local Open Scope R_scope.

(** ** sim.py:423-465 decorate: the coordinate along axis [a] that the DataArray of E (of H) gives to index [i].
    grid.py:82-84: pos = hstack((0, cumsum(cells))) with one entry more than there are cells, or [0] for a single cell;
    the cells are all [d a] long.  The label is the same for the three field components. *)
Definition grid_pos (s : shape3) (d : axis -> R) (a : axis) : list R :=
  if Nat.ltb 1 (s a) then map (fun i => INR i * d a) (seq 0 (S (s a))) else [0].
Definition label_e (s : shape3) (d : axis -> R) (a : axis) : list R :=
  let p := grid_pos s d a in if Nat.ltb 1 (length p) then removelast p else [0].
Definition label_h (s : shape3) (d : axis -> R) (a : axis) : list R :=
  let p := grid_pos s d a in if Nat.ltb 1 (length p) then map (fun x => x + / 2 * d a) (removelast p) else [0].

(** ** utils.py:367-384 shift_slice.  An entry: a Python int, an integer of another type (numpy; isinstance(x, int) is False), a slice
    whose ends are ints or None.  [slices[axis] += slice(...)] is a TypeError; an axis out of range is an IndexError: None. *)
Inductive sentry := EInt (z : Z) | ENp (z : Z) | ESlice (start stop : option Z).
Definition set_nth {A : Type} (l : list A) (n : nat) (x : A) : list A := firstn n l ++ x :: skipn (S n) l.
Definition shift_slice (l : list sentry) (shift : Z) (ax : nat) : option (list sentry) :=
  match nth_error l ax with
  | None => None
  | Some (EInt z) => Some (set_nth l ax (EInt (z + shift)))
  | Some (ESlice (Some _) (Some _)) => None
  | Some _ => Some l
  end.

(** ** What the frequency-domain simulation of one pattern provides, as parameters: the ports in the order of the port dictionary,
    the source of a port built from that port's mode at a wavelength and profile size factor (sim.py:153-190), the fields of a
    simulation run at a wavelength (fdfd.py:330-406) for a source, and the (outgoing, incoming) amplitudes that a port's mode at a
    wavelength and profile size factor measures in the fields (sim.py:195-230). *)
Record device := mkDevice {
  dv_src : Type;
  dv_fields : Type;
  dv_ports : list nat;
  dv_source : nat -> R -> R -> dv_src;
  dv_solve : R -> dv_src -> dv_fields;
  dv_measure : nat -> R -> R -> dv_fields -> C * C
}.
(** sim.py:156, 155, 196: the defaults of profile_size_factor and wavelength. *)
Definition default_wavelength : R := 155 / 100.
Definition default_factor : R := 3.
Fixpoint pos_of (p : nat) (l : list nat) : option nat :=
  match l with
  | [] => None
  | q :: r => if Nat.eqb q p then Some O else match pos_of p r with Some n => Some (S n) | None => None end
  end.
(** sim.py:283-320 get_sim_sparams_fn(port, profile_size_factor=factor)(eps): neither port_source nor get_measure_fn is given the
    wavelength of the simulation, and get_measure_fn is not given the factor.  None = KeyError / ValueError. *)
Definition sparams (D : device) (wl factor : R) (port : nat) : option (list C) :=
  match pos_of port (dv_ports D) with
  | None => None
  | Some idx =>
      let fields := dv_solve D wl (dv_source D port default_wavelength factor) in
      let m := map (fun p => dv_measure D p default_wavelength default_factor fields) (dv_ports D) in
      Some (map (fun x => (fst x / snd (nth idx m (C0, C0)))%C) m)
  end.
(** component.py:64-97 from_fdfd: data[wavelength][in port][out port], and the coordinates of the three dimensions.  xr.DataArray
    raises (None) when a coordinate is None or when its length is not that of its dimension. *)
Record dataarray := mkDA { da_data : list (list (list C)); da_wl : list R; da_in : list nat; da_out : list nat }.
Fixpoint collect {A : Type} (l : list (option A)) : option (list A) :=
  match l with
  | [] => Some []
  | x :: r => match x, collect r with Some a, Some b => Some (a :: b) | _, _ => None end
  end.
Definition from_fdfd (D : device) (wavelengths : list R) (factor : R) (in_ports out_ports : option (list nat)) : option dataarray :=
  match collect (map (fun wl => collect (map (sparams D wl factor) (dv_ports D))) wavelengths), in_ports, out_ports with
  | Some data, Some i, Some o =>
      if (Nat.eqb (length i) (length (dv_ports D)) && Nat.eqb (length o) (length (dv_ports D)))%bool
      then Some (mkDA data wavelengths i o) else None
  | _, _, _ => None
  end.
(** model.sel(in_ports=a, out_ports=b)[k]: selection by label along the ports, by position along the wavelengths. *)
Definition da_sel (da : dataarray) (k : nat) (a b : nat) : option C :=
  match pos_of a (da_in da), pos_of b (da_out da) with
  | Some i, Some o => nth_error (nth i (nth k (da_data da) []) []) o
  | _, _ => None
  end.
