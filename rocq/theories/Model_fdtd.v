(** Model of simphox/fdtd.py (and utils.curl_pml_fn).  No proofs in this file.
    Simplifications: exact arithmetic; a source region (a tuple of slices) is the set of cells it selects, and a source is
    given by its value at each of these cells (after squeeze and broadcasting); PML sub-arrays [e[region]] are full-size
    fields of which only the region's cells are used. *)
From Coq Require Import Reals List Arith Bool.
From Verif Require Import Cx Arr Model_yee.
Import ListNotations.
Local Open Scope R_scope.

(** grid.py:62-66: the spacings of the ndim first axes. *)
Record fgrid := mkGrid { g_shape : shape3; g_ndim : nat; g_spacing : axis -> R; g_eps : rfld }.
Definition axis_no (a : axis) : nat := match a with AX => 0 | AY => 1 | AZ => 2 end.
Definition is_active (g : fgrid) (a : axis) : bool := Nat.ltb (axis_no a) (g_ndim g).
(** grid.py:83-86: cells of the grid; an axis beyond ndim has one cell of size 1. *)
Definition g_dx (g : fgrid) : pixel := uniform_dx (fun a => if is_active g a then g_spacing g a else 1).
(** fdtd.py:39 dt = 1 / np.sqrt(np.sum(1 / spacing ** 2)). *)
Definition inv_sq (g : fgrid) (a : axis) : R := if is_active g a then / (g_spacing g a * g_spacing g a) else 0.
Definition dt_of (g : fgrid) : R := 1 / sqrt (inv_sq g AX + inv_sq g AY + inv_sq g AZ).
(** fdtd.py:350-360 eps_t. *)
Definition eps_t (g : fgrid) (use_jax : bool) : axis -> rfld :=
  if use_jax then yee_avg_jax (g_shape g) (g_eps g) else yee_avg (g_shape g) (g_eps g).

Definition cells := axis -> nat -> nat -> nat -> bool.
Record source := mkSource { src_e : option vfld; src_h : option vfld; src_region : cells }.
Record fstate := mkState { f_e : vfld; f_h : vfld }.

(** fdtd.py:49-50 _curl_e, _curl_h. *)
Definition curl_e (g : fgrid) : vfld -> vfld := curl_fn (diff_fn (g_shape g) (g_dx g) false).
Definition curl_h (g : fgrid) : vfld -> vfld := curl_fn (diff_fn (g_shape g) (g_dx g) true).

(** jax: x.at[region].set(v);  numpy: x[region] += v. *)
Definition at_set (m : cells) (v x : vfld) : vfld := fun c i j k => if m c i j k then v c i j k else x c i j k.
Definition at_add (m : cells) (v x : vfld) : vfld := fun c i j k => if m c i j k then (x c i j k + v c i j k)%C else x c i j k.

(** fdtd.py:117-142 _step_e without PML regions: new E. *)
Definition add_src_e (g : fgrid) (jax : bool) (e : vfld) (src : source) : vfld :=
  match src_e src with
  | None => e
  | Some v =>
    let d : vfld := fun c i j k => (- (v c i j k / RtoC (eps_t g jax c i j k) * RtoC (dt_of g)))%C in
    if jax then at_set (src_region src) d e else at_add (src_region src) d e
  end.
Definition step_e (g : fgrid) (jax : bool) (st : fstate) (srcs : list source) : vfld :=
  let e : vfld := fun c i j k =>
    (f_e st c i j k + curl_h g (f_h st) c i j k / RtoC (eps_t g jax c i j k) * RtoC (dt_of g))%C in
  fold_left (add_src_e g jax) srcs e.
(** fdtd.py:144-169 _step_h without PML regions: new H. *)
Definition add_src_h (g : fgrid) (jax : bool) (h : vfld) (src : source) : vfld :=
  match src_h src with
  | None => h
  | Some v =>
    let d : vfld := fun c i j k => (- (v c i j k * RtoC (dt_of g)))%C in
    if jax then at_set (src_region src) d h else at_add (src_region src) d h
  end.
Definition step_h (g : fgrid) (jax : bool) (e h : vfld) (srcs : list source) : vfld :=
  let h' : vfld := fun c i j k => (h c i j k - curl_e g e c i j k * RtoC (dt_of g))%C in
  fold_left (add_src_h g jax) srcs h'.
(** fdtd.py:171-229 step (pml=None). *)
Definition step (g : fgrid) (jax : bool) (st : fstate) (srcs : list source) : fstate :=
  let e := step_e g jax st srcs in mkState e (step_h g jax e (f_h st) srcs).
(** Repeated stepping (the loop of run_cw_port, fdtd.py:272-283), the sources of each step being given. *)
Fixpoint run (g : fgrid) (jax : bool) (st : fstate) (srcs : list (list source)) : fstate :=
  match srcs with [] => st | s :: rest => run g jax (step g jax st s) rest end.
(** n steps without sources. *)
Definition free_run (g : fgrid) (jax : bool) (st : fstate) (n : nat) : fstate := run g jax st (repeat [] n).
(** fdtd.py:93-115 zero_state. *)
Definition zero_vfld : vfld := fun _ _ _ _ => C0.
Definition zero_state : fstate := mkState zero_vfld zero_vfld.

(** ** PML memory: utils.py:180-192 curl_pml_fn.  The six stored differences are indexed 0..5. *)
Definition psi := nat -> fld.
Definition curl_pml_fn (df : fld -> axis -> fld) (f : vfld) (prev : psi) (b : axis -> fld) : psi * vfld :=
  let next : psi := fun n =>
    match n with
    | 0 => df (f AZ) AY | 1 => df (f AY) AZ
    | 2 => df (f AX) AZ | 3 => df (f AZ) AX
    | 4 => df (f AY) AX | _ => df (f AX) AY
    end%nat in
  let pm (m : nat) (a : axis) : fld := fun i j k => (next m i j k + prev m i j k * b a i j k)%C in
  (next, fun c => match c with
         | AX => fun i j k => (pm 0%nat AY i j k - next 1%nat i j k - prev 1%nat i j k * b AZ i j k)%C
         | AY => fun i j k => (pm 2%nat AZ i j k - next 3%nat i j k - prev 3%nat i j k * b AX i j k)%C
         | AZ => fun i j k => (pm 4%nat AX i j k - next 5%nat i j k - prev 5%nat i j k * b AY i j k)%C
         end).
(** The memory and the correction after feeding a list of fields, one per step (fdtd.py:121-123: psi_e[idx], p = ...). *)
Fixpoint pml_run (df : fld -> axis -> fld) (b : axis -> fld) (fs : list vfld) (prev : psi) (corr : vfld) : psi * vfld :=
  match fs with
  | [] => (prev, corr)
  | f :: rest => let (nx, c) := curl_pml_fn df f prev b in pml_run df b rest nx c
  end.

(** ** In-place semantics.  numpy's [e += x] and [e[region] -= x] write into the array object the caller holds; jax arrays are
    immutable and [e += x] rebinds the local name.  The heap maps array objects to contents; a state is a pair of objects. *)
Definition heap := nat -> vfld.
Definition write (hp : heap) (l : nat) (v : vfld) : heap := fun m => if Nat.eqb m l then v else hp m.
Record refs := mkRefs { r_e : nat; r_h : nat }.
(** fdtd.py:117-169 + 171-229 with use_jax=False: both arrays are updated in place and returned. *)
Definition step_np_heap (g : fgrid) (hp : heap) (st : refs) (srcs : list source) : heap * refs :=
  let e := step_e g false (mkState (hp (r_e st)) (hp (r_h st))) srcs in
  let hp1 := write hp (r_e st) e in
  let h := step_h g false (hp1 (r_e st)) (hp1 (r_h st)) srcs in
  (write hp1 (r_h st) h, st).
(** with use_jax=True: two fresh objects. *)
Definition step_jax_heap (g : fgrid) (hp : heap) (fresh_e fresh_h : nat) (st : refs) (srcs : list source) : heap * refs :=
  let e := step_e g true (mkState (hp (r_e st)) (hp (r_h st))) srcs in
  let hp1 := write hp fresh_e e in
  let h := step_h g true (hp1 fresh_e) (hp1 (r_h st)) srcs in
  (write hp1 fresh_h h, mkRefs fresh_e fresh_h).
(** fdtd.py:279-282: h_before is the H object of the state before the step; synchronized H = (h_before + h) / 2, read after it. *)
Definition sync_h (hp_after : heap) (before after : refs) : vfld := fun c i j k =>
  ((hp_after (r_h before) c i j k + hp_after (r_h after) c i j k) / RtoC 2)%C.
