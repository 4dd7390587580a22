(** Vocabulary for the orthogonality of waveguide modes and for the range of their propagation constants. *)
From Coq Require Import Reals Arith ZArith List.
From Verif Require Import Cx Arr Model_yee Spec_yee Model_coupling Model_fdfd Spec_fdfd Model_mode Spec_mode.
Import ListNotations.
Local Open Scope R_scope.

(** The power that the electric field e and the magnetic field h carry together through the cross section: e x conj(h) along the
    propagation axis z, summed over the cells. *)
Definition cross_power (s : shape3) (e h : vfld) : C :=
  grid_sum s (fun i j k => power_along AZ (fun c => e c i j k) (fun c => h c i j k)).
(** Some entry of the raveled vector is not zero. *)
Definition nonzero (n : nat) (v : vec) : Prop := exists r, (r < n)%nat /\ v r <> C0.
(** Everywhere at most M. *)
Definition eps_below (q : mode_solver) (M : R) : Prop := forall i j k, in_grid (q_shape q) i j k -> q_eps q i j k <= M.
(** No two entries of the list have the same square. *)
Definition distinct_sq (l : list R) : Prop := forall a b, (a < length l)%nat -> (b < length l)%nat -> a <> b ->
  nth a l 0 * nth a l 0 <> nth b l 0 * nth b l 0.
(** A mode of the library, 2-d cross section: propagation constant and eigenvector; its fields as ModeLibrary.e / ModeLibrary.h. *)
Record mode2 := mkMode2 { m_beta : R; m_vx : vec; m_vy : vec }.
Definition lib_h (q : mode_solver) (m : mode2) : vfld := mode_h q (m_beta m) (m_vx m) (m_vy m).
Definition lib_e (q : mode_solver) (m : mode2) : vfld := mode_e q (m_beta m) (lib_h q m).
Definition is_mode2 (q : mode_solver) (m : mode2) : Prop :=
  0 < m_beta m /\ eigen2 q (RtoC (m_beta m * m_beta m)) (m_vx m) (m_vy m).
(** Sum over modes of weight^2 * power. *)
Fixpoint weighted_power (q : mode_solver) (ms : list mode2) (ws : list R) : C :=
  match ms, ws with
  | m :: ms', w :: ws' => (RtoC (w * w) * cross_power (q_shape q) (lib_e q m) (lib_h q m) + weighted_power q ms' ws')%C
  | _, _ => C0
  end.
