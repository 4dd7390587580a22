(** Model of simphox/fdtd.py with perfectly matched layers: _set_pml, curl_e_pml, curl_h_pml, the PML part of _step_e and
    _step_h, zero_state, and the construction checks.  No proofs in this file.
    Simplifications: as in Model_fdtd; additionally a PML sub-array (e[region], psi, cpml_b, cpml_c) is a full-size field indexed
    by the absolute cell of which only the region's cells are used; the exponent of the grading is a natural number; kappa = 1
    and alpha = 1e-8 are the literals of the code. *)
From Coq Require Import Reals ZArith List Arith Bool.
From Verif Require Import Cx Arr Model_yee Model_fdtd Model_fdfd.
Import ListNotations.
Local Open Scope R_scope.

(** The parameters FDTD.__init__ hands to _set_pml: pml_shape (fdtd.py:47-48, grid.py:343) and pml_params (fdtd.py:307). *)
Record fpml := mkPml { p_cells : axis -> nat; p_exp : nat; p_logr : R; p_corr : R }.
(** fdtd.py:313-318: the six regions, as (normal axis, lower side?). *)
Definition region := (axis * bool)%type.
Definition pml_regions : list region := [(AX, true); (AX, false); (AY, true); (AY, false); (AZ, true); (AZ, false)].
(** slice(None, t) and slice(-t, None) along the normal axis. *)
Definition in_region (g : fgrid) (p : fpml) (r : region) (i j k : nat) : bool :=
  let x := coord (fst r) i j k in
  if snd r then Nat.ltb x (p_cells p (fst r)) else Nat.leb (g_shape g (fst r) - p_cells p (fst r)) x.

(** utils.py:218-225 pml_sigma along an axis of n cells of width h, and fdtd.py:309 (negated).  Column 0 ([at_edge] = false)
    uses the cell centres, column 1 the cell edges. *)
Definition sigma (p : fpml) (h : R) (n t : nat) (at_edge : bool) (i : nat) : R :=
  - ((INR (p_exp p) + 1) * d_pml h n t (if at_edge then pos_h h else pos_e h) i ^ p_exp p * p_logr p / (2 * p_corr p)).
Definition alpha : R := / 100000000.
(** fdtd.py:320-330: sigma_ax is zero except for the component of the region's own axis; cpml_b, cpml_c.
    [at_edge]: entry 1 of cpml_b / cpml_c (E update), else entry 0 (H update). *)
Definition sigma_ax (g : fgrid) (p : fpml) (at_edge : bool) (r : region) (c : axis) (i j k : nat) : R :=
  if Nat.eqb (axis_no c) (axis_no (fst r))
  then sigma p (g_spacing g c) (g_shape g c) (p_cells p c) at_edge (coord c i j k) else 0.
Definition cpml_b (g : fgrid) (p : fpml) (at_edge : bool) (r : region) (c : axis) (i j k : nat) : R :=
  exp (- (alpha + sigma_ax g p at_edge r c i j k) * dt_of g).
Definition cpml_c (g : fgrid) (p : fpml) (at_edge : bool) (r : region) (c : axis) (i j k : nat) : R :=
  (cpml_b g p at_edge r c i j k - 1) * sigma_ax g p at_edge r c i j k / (sigma_ax g p at_edge r c i j k + alpha).
(** fdtd.py:332-348 curl_e_pml (de), curl_h_pml (dh): c[ax] times the difference of the whole grid, read on the region. *)
Definition pml_diff (g : fgrid) (p : fpml) (of_h : bool) (r : region) (f : fld) (a : axis) : fld := fun i j k =>
  (RtoC (cpml_c g p of_h r a i j k) * diff_fn (g_shape g) (g_dx g) of_h f a i j k)%C.
Definition pml_b (g : fgrid) (p : fpml) (of_h : bool) (r : region) : axis -> fld := fun a i j k => RtoC (cpml_b g p of_h r a i j k).
Definition curl_pml (g : fgrid) (p : fpml) (of_h : bool) (r : region) (f : vfld) (m : psi) : psi * vfld :=
  curl_pml_fn (pml_diff g p of_h r) f m (pml_b g p of_h r).

(** The state with PML: fields and one memory per region (fdtd.py:93-115). *)
Definition mem := region -> psi.
Record pstate := mkPstate { ps_e : vfld; ps_h : vfld; ps_psi_e : mem; ps_psi_h : mem }.
Definition zero_mem : mem := fun _ _ _ _ _ => C0.
(** fdtd.py:120-123, 148-151: the new memories and the corrections, all computed from the same field. *)
Definition new_mem (g : fgrid) (p : fpml) (of_h : bool) (f : vfld) (m : mem) : mem := fun r => fst (curl_pml g p of_h r f (m r)).
Definition phi (g : fgrid) (p : fpml) (of_h : bool) (f : vfld) (m : mem) (r : region) : vfld := snd (curl_pml g p of_h r f (m r)).
(** fdtd.py:128-132 and 156-160: x[region] += v (numpy and jax alike). *)
Definition region_add (g : fgrid) (p : fpml) (v : region -> vfld) (x : vfld) (r : region) : vfld := fun c i j k =>
  if in_region g p r i j k then (x c i j k + v r c i j k)%C else x c i j k.
(** fdtd.py:117-142 _step_e. *)
Definition pstep_e (g : fgrid) (jax : bool) (p : fpml) (st : pstate) (srcs : list source) : vfld :=
  let e : vfld := fun c i j k => (ps_e st c i j k + curl_h g (ps_h st) c i j k / RtoC (eps_t g jax c i j k) * RtoC (dt_of g))%C in
  let ph : region -> vfld := fun r c i j k =>
    (phi g p true (ps_h st) (ps_psi_e st) r c i j k / RtoC (eps_t g jax c i j k) * RtoC (dt_of g))%C in
  fold_left (add_src_e g jax) srcs (fold_left (region_add g p ph) pml_regions e).
(** fdtd.py:144-169 _step_h. *)
Definition pstep_h (g : fgrid) (jax : bool) (p : fpml) (e h : vfld) (m : mem) (srcs : list source) : vfld :=
  let h' : vfld := fun c i j k => (h c i j k - curl_e g e c i j k * RtoC (dt_of g))%C in
  let ph : region -> vfld := fun r c i j k => (- (phi g p false e m r c i j k * RtoC (dt_of g)))%C in
  fold_left (add_src_h g jax) srcs (fold_left (region_add g p ph) pml_regions h').
(** fdtd.py:171-229 step. *)
Definition pstep (g : fgrid) (jax : bool) (p : fpml) (st : pstate) (srcs : list source) : pstate :=
  let e := pstep_e g jax p st srcs in
  mkPstate e (pstep_h g jax p e (ps_h st) (ps_psi_h st) srcs)
    (new_mem g p true (ps_h st) (ps_psi_e st)) (new_mem g p false e (ps_psi_h st)).
(** The loop of run_cw_port (fdtd.py:272-283), the sources of each step being given. *)
Fixpoint prun (g : fgrid) (jax : bool) (p : fpml) (st : pstate) (srcs : list (list source)) : pstate :=
  match srcs with [] => st | s :: rest => prun g jax p (pstep g jax p st s) rest end.

(** ** What a call of step does to the caller's own state object, use_jax=True (fdtd.py:118-123, 145-151): the arrays e and h
    are immutable, but psi_e and psi_h are Python lists whose entries are replaced.  Second component: the caller's tuple after
    the call. *)
Definition pstep_jax_caller (g : fgrid) (p : fpml) (st : pstate) (srcs : list source) : pstate * pstate :=
  let st' := pstep g true p st srcs in
  (st', mkPstate (ps_e st) (ps_h st) (ps_psi_e st') (ps_psi_h st')).

(** ** Construction: grid.py:343-351 (the thickness test on the ndim axes), fdtd.py:47-48 and 306-331 (_set_pml reads
    pml_shape[0], [1] and [2], and every region needs its own coefficients).  None: an exception. *)
Definition thick_ok (g : fgrid) (t : list nat) : bool :=
  forallb (fun at_ => negb (Nat.leb (snd at_) 3 || Nat.leb (g_shape g (fst at_) / 2) (snd at_))) (combine [AX; AY; AZ] t).
Definition make_fdtd (g : fgrid) (t : option (list nat)) (exp_scale : nat) (logr corr : R) : option (option fpml) :=
  match t with
  | None => Some None
  | Some t =>
    if thick_ok g t && Nat.eqb (length t) (g_ndim g) then
      match nth_error t 0, nth_error t 1, nth_error t 2 with
      | Some x, Some y, Some z => Some (Some (mkPml (fun a => match a with AX => x | AY => y | AZ => z end) exp_scale logr corr))
      | _, _, _ => None
      end
    else None
  end.
