(** Vocabulary for exchanging and rotating the axes of a simulation. *)
From Coq Require Import Reals List Arith.
From Verif Require Import Cx Arr Model_coupling Model_yee Spec_yee Model_fdtd Model_fdfd Spec_fdfd Spec_fdtd Model_fdfdc Spec_fdfdc Spec_fdfdsy Model_mode Spec_mode.
Import ListNotations.
Local Open Scope R_scope.

(** ** x and y exchanged: the cell (i, j, k) of the new grid is the cell (j, i, k) of the old one. *)
Definition other (a : axis) : axis := match a with AX => AY | AY => AX | AZ => AZ end.
Definition flip {T : Type} (f : nat -> nat -> nat -> T) : nat -> nat -> nat -> T := fun i j k => f j i k.
(** E and J are vectors; exchanging two axes is a reflection, so that H, a pseudovector, also changes sign. *)
Definition flip_e (e : vfld) : vfld := fun c => flip (e (other c)).
Definition flip_h (h : vfld) : vfld := fun c i j k => (- flip (h (other c)) i j k)%C.
Definition flip_state (st : fstate) : fstate := mkState (flip_e (f_e st)) (flip_h (f_h st)).
Definition flip_grid (g : fgrid) : fgrid := mkGrid (fun a => g_shape g (other a)) (g_ndim g) (fun a => g_spacing g (other a)) (flip (g_eps g)).
Definition flip_source (x : source) : source :=
  mkSource (option_map flip_e (src_e x)) (option_map flip_h (src_h x)) (fun c => flip (src_region x (other c))).
Definition flip_cf (d : cfdfd) : cfdfd :=
  mkCfdfd (fun a => cf_shape d (other a)) (fun a => cf_dxf d (other a)) (fun a => cf_dxb d (other a)) (fun a => cf_bloch d (other a)) (cf_k0 d) (flip (cf_eps d)).
Definition flip_q (q : mode_solver) : mode_solver :=
  mkQ (fun a => q_shape q (other a)) (fun a => q_h q (other a)) (q_k0 q) (flip (q_eps q)).
(** The eigenvector entries: the cells of the new cross section, in its own raveling order. *)
Definition flip_vec (q : mode_solver) (v : vec) : vec :=
  ravel (fun a => q_shape q (other a)) (fun i j k => (- v (ridx (q_shape q) j i k))%C).

(** ** All axes moved up by one: the new x axis is the old y axis, the new y the old z, the new z the old x. *)
Definition after (a : axis) : axis := match a with AX => AY | AY => AZ | AZ => AX end.
Definition cycle {T : Type} (f : nat -> nat -> nat -> T) : nat -> nat -> nat -> T := fun i j k => f k i j.
Definition cycle_v (f : vfld) : vfld := fun c => cycle (f (after c)).
Definition cycle_state (st : fstate) : fstate := mkState (cycle_v (f_e st)) (cycle_v (f_h st)).
Definition cycle_grid (g : fgrid) : fgrid := mkGrid (fun a => g_shape g (after a)) (g_ndim g) (fun a => g_spacing g (after a)) (cycle (g_eps g)).
Definition cycle_source (x : source) : source :=
  mkSource (option_map cycle_v (src_e x)) (option_map cycle_v (src_h x)) (fun c => cycle (src_region x (after c))).
Definition cycle_cf (d : cfdfd) : cfdfd :=
  mkCfdfd (fun a => cf_shape d (after a)) (fun a => cf_dxf d (after a)) (fun a => cf_dxb d (after a)) (fun a => cf_bloch d (after a)) (cf_k0 d) (cycle (cf_eps d)).

(** At most one solution (see C164 for when this holds). *)
Definition unique3 (d : cfdfd) : Prop := forall src e e', wave3 d src e -> wave3 d src e' -> same_v (cf_shape d) e e'.
Definition unique_te (d : cfdfd) : Prop := forall src e e', wave_te d src e -> wave_te d src e' -> same_on (cf_shape d) e e'.
Definition unique_tm (d : cfdfd) : Prop := forall src e e', wave_tm d src e -> wave_tm d src e' -> same_on (cf_shape d) e e'.
(** An eigenvalue of the cross section's operator (the square of a propagation constant). *)
Definition is_eigenvalue (q : mode_solver) (lam : C) : Prop := exists U V, eigen2 q lam U V /\
  ((exists r, (r < q_n q)%nat /\ U r <> C0) \/ (exists r, (r < q_n q)%nat /\ V r <> C0)).
