(** Specification vocabulary for the FDTD properties: well-formed grids, energies, superposition, divergence of D and B,
    the documented PML recursion. *)
From Coq Require Import Reals List Arith.
From Verif Require Import Cx Arr Model_yee Spec_yee Model_fdtd.
Import ListNotations.
Local Open Scope R_scope.

(** What Grid.__init__ guarantees: at least one cell per axis, positive spacings, one cell beyond ndim; 1 <= ndim <= 3. *)
Definition wf_grid (g : fgrid) : Prop :=
  (1 <= g_ndim g <= 3)%nat /\ positive_shape (g_shape g) /\
  (forall a, is_active g a = true -> 0 < g_spacing g a) /\ (forall a, is_active g a = false -> g_shape g a = 1%nat).

(** Real sums over cells and components. *)
Definition rgrid_sum (s : shape3) (F : rfld) : R := Rsum (s AX) (fun i => Rsum (s AY) (fun j => Rsum (s AZ) (fun k => F i j k))).
Definition sum3 (F : axis -> R) : R := F AX + F AY + F AZ.
(** Electromagnetic energy sum eps |E|^2 + |H|^2 of a state. *)
Definition field_energy (g : fgrid) (jax : bool) (st : fstate) : R :=
  sum3 (fun c => rgrid_sum (g_shape g) (fun i j k => eps_t g jax c i j k * Cn2 (f_e st c i j k) + Cn2 (f_h st c i j k))).
(** Leapfrog energy of two consecutive states: sum eps |E_{n+1}|^2 + Re (H_{n+1} . conj H_n); E sits midway in time between them. *)
Definition leapfrog_energy (g : fgrid) (jax : bool) (before after : fstate) : R :=
  sum3 (fun c => rgrid_sum (g_shape g) (fun i j k =>
    eps_t g jax c i j k * Cn2 (f_e after c i j k) + re (f_h after c i j k * Cconj (f_h before c i j k))%C)).

(** D = eps E. *)
Definition displacement (g : fgrid) (jax : bool) (e : vfld) : vfld := fun c i j k => (RtoC (eps_t g jax c i j k) * e c i j k)%C.
(** Discrete divergences: D lives on backward differences (as curl H), B = H on forward differences (as curl E). *)
Definition div_D (g : fgrid) (jax : bool) (st : fstate) : fld :=
  divergence (diff_fn (g_shape g) (g_dx g) true) (displacement g jax (f_e st)).
Definition div_B (g : fgrid) (st : fstate) : fld := divergence (diff_fn (g_shape g) (g_dx g) false) (f_h st).
(** Total current of a list of sources (zero outside each region). *)
Definition masked (m : cells) (v : option vfld) : vfld := fun c i j k =>
  match v with Some w => if m c i j k then w c i j k else C0 | None => C0 end.
Fixpoint current (which : source -> option vfld) (srcs : list source) : vfld :=
  match srcs with
  | [] => zero_vfld
  | s :: rest => fun c i j k => (masked (src_region s) (which s) c i j k + current which rest c i j k)%C
  end.

(** Superposition of states and of sources with the same regions. *)
Definition lin (al be : C) (f g : vfld) : vfld := fun c i j k => (al * f c i j k + be * g c i j k)%C.
Definition lin_state (al be : C) (a b : fstate) : fstate := mkState (lin al be (f_e a) (f_e b)) (lin al be (f_h a) (f_h b)).
Definition lin_opt (al be : C) (a b r : option vfld) : Prop :=
  match a, b, r with
  | None, None, None => True
  | Some f, Some g, Some h => forall c i j k, h c i j k = lin al be f g c i j k
  | _, _, _ => False
  end.
Definition lin_source (al be : C) (a b r : source) : Prop :=
  (forall c i j k, src_region a c i j k = src_region r c i j k) /\ (forall c i j k, src_region b c i j k = src_region r c i j k) /\
  lin_opt al be (src_e a) (src_e b) (src_e r) /\ lin_opt al be (src_h a) (src_h b) (src_h r).
Inductive lin_sources (al be : C) : list source -> list source -> list source -> Prop :=
| ls_nil : lin_sources al be [] [] []
| ls_cons : forall a b r la lb lr, lin_source al be a b r -> lin_sources al be la lb lr -> lin_sources al be (a :: la) (b :: lb) (r :: lr).
Inductive lin_schedule (al be : C) : list (list source) -> list (list source) -> list (list source) -> Prop :=
| lsch_nil : lin_schedule al be [] [] []
| lsch_cons : forall a b r la lb lr, lin_sources al be a b r -> lin_schedule al be la lb lr -> lin_schedule al be (a :: la) (b :: lb) (r :: lr).
Definition same_vfld (f g : vfld) : Prop := forall c i j k, f c i j k = g c i j k.
Definition same_state (a b : fstate) : Prop := same_vfld (f_e a) (f_e b) /\ same_vfld (f_h a) (f_h b).

(** The documented PML memory of one difference (fdtd.py:190-205): psi' = b psi + c * difference, [d] being c * difference. *)
Fixpoint doc_psi (b : C) (ds : list C) (p : C) : C := match ds with [] => p | d :: rest => doc_psi b rest (b * p + d)%C end.
(** The documented correction curl(psi) after feeding the fields fs: each of the six differences has its own memory. *)
Definition doc_corr (df : fld -> axis -> fld) (b : axis -> fld) (fs : list vfld) : vfld := fun c i j k =>
  let mem (comp ax : axis) := doc_psi (b ax i j k) (map (fun f => df (f comp) ax i j k) fs) C0 in
  match c with
  | AX => (mem AZ AY - mem AY AZ)%C
  | AY => (mem AX AZ - mem AZ AX)%C
  | AZ => (mem AY AX - mem AX AY)%C
  end.
Definition zero_psi : psi := fun _ _ _ _ => C0.
