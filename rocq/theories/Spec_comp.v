(** What coordinates, s-parameters and shifted slices should be, independently of the code. *)
From Coq Require Import Reals List Arith ZArith.
From Verif Require Import Cx Arr Model_yee Model_comp.
Import ListNotations.
Local Open Scope R_scope.

Definition axis_eqb (a b : axis) : bool := match a, b with AX, AX | AY, AY | AZ, AZ => true | _, _ => false end.
(** A plane wave of wave vector [k] and (complex) amplitudes [A], whose component c is sampled at index (i, j, l) at the point
    [pos c]: [pos c a n] is the coordinate along a of index n. *)
Definition wave (k : axis -> R) (A : axis -> C) (pos : axis -> axis -> nat -> R) : vfld := fun c i j l =>
  (A c * cis (k AX * pos c AX i + k AY * pos c AY j + k AZ * pos c AZ l))%C.
(** Yee's staggered grid: a component of E sits half a cell along its own direction, a component of H half a cell along the two others. *)
Definition yee_e (d : axis -> R) : axis -> axis -> nat -> R := fun c a n => if axis_eqb c a then (INR n + / 2) * d a else INR n * d a.
Definition yee_h (d : axis -> R) : axis -> axis -> nat -> R := fun c a n => if axis_eqb c a then INR n * d a else (INR n + / 2) * d a.
(** The wave number that central differences see, and the cross product. *)
Definition seen (d k : axis -> R) (a : axis) : R := 2 * sin (k a * d a / 2) / d a.
Definition crossv (u : axis -> R) (A : axis -> C) (c : axis) : C :=
  match c with
  | AX => (RtoC (u AY) * A AZ - RtoC (u AZ) * A AY)%C
  | AY => (RtoC (u AZ) * A AX - RtoC (u AX) * A AZ)%C
  | AZ => (RtoC (u AX) * A AY - RtoC (u AY) * A AX)%C
  end.
(** No wrap-around at this cell: it has a neighbour in each direction, or the axis has a single cell and nothing varies along it. *)
Definition inside_up (s : shape3) (k : axis -> R) (i j l : nat) : Prop :=
  forall a, (S (coord a i j l) < s a)%nat \/ (s a = 1%nat /\ coord a i j l = O /\ k a = 0).
Definition inside_down (s : shape3) (k : axis -> R) (i j l : nat) : Prop :=
  forall a, (0 < coord a i j l < s a)%nat \/ (s a = 1%nat /\ coord a i j l = O /\ k a = 0).

(** The s-parameter from port a to port b of the device simulated at a wavelength: the amplitude leaving at b over the amplitude
    entering at a, when port a is excited, all with the ports' modes at that wavelength and profile size factor. *)
Definition true_sparam (D : device) (wl factor : R) (a b : nat) : C :=
  let fields := dv_solve D wl (dv_source D a wl factor) in
  (fst (dv_measure D b wl factor fields) / snd (dv_measure D a wl factor fields))%C.
(** Two devices that differ only in the modes of their ports. *)
Definition with_modes (D : device) (src : nat -> R -> R -> dv_src D) (meas : nat -> R -> R -> dv_fields D -> C * C) : device :=
  mkDevice (dv_src D) (dv_fields D) (dv_ports D) src (dv_solve D) meas.

(** The indices that one entry of a tuple of slices selects along its axis (n: the length of the axis; ends within the axis). *)
Definition selects (n : Z) (e : sentry) (i : Z) : Prop :=
  match e with
  | EInt z | ENp z => i = z
  | ESlice a b => (match a with Some x => x | None => 0 end <= i < match b with Some x => x | None => n end)%Z
  end.
