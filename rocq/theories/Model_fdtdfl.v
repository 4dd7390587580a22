(** Model of FDTD.step in arithmetic with rounding (use_jax=False, no PML): simphox/fdtd.py:117-229, simphox/grid.py:412-430,
    simphox/utils.py:165-177.  No proofs in this file.
    Simplification: overflow does not occur. *)
From Coq Require Import Reals List Arith Bool.
From Verif Require Import Cx Arr Model_yee Model_fdtd Model_float.
Import ListNotations.
Local Open Scope R_scope.

(** Sums and differences of complex arrays; products and quotients of a complex and a real array. *)
Record farith := mkFarith { fa_add : C -> C -> C; fa_sub : C -> C -> C; fa_mul : C -> R -> C; fa_div : C -> R -> C }.
(** grid.py:83-86, as g_dx. *)
Definition cell_len (g : fgrid) (a : axis) : R := if is_active g a then g_spacing g a else 1.
(** grid.py:424-429 _diff. *)
Definition diff_fl (ar : farith) (g : fgrid) (of_h : bool) (f : fld) (a : axis) : fld := fun i j k =>
  if of_h then fa_div ar (fa_sub ar (f i j k) (roll_p1 (g_shape g) a f i j k)) (cell_len g a)
  else fa_div ar (fa_sub ar (roll_m1 (g_shape g) a f i j k) (f i j k)) (cell_len g a).
(** utils.py:173-176 _curl. *)
Definition curl_fl (ar : farith) (g : fgrid) (of_h : bool) (f : vfld) : vfld := fun c i j k =>
  let df := diff_fl ar g of_h in
  match c with
  | AX => fa_sub ar (df (f AZ) AY i j k) (df (f AY) AZ i j k)
  | AY => fa_sub ar (df (f AX) AZ i j k) (df (f AZ) AX i j k)
  | AZ => fa_sub ar (df (f AY) AX i j k) (df (f AX) AY i j k)
  end.
(** The machine's time step and permittivities. *)
Record mconst := mkConst { m_dt : R; m_eps : axis -> rfld }.
(** fdtd.py:139-140 e[source_region] -= source / eps_t[source_region] * dt. *)
Definition add_src_e_fl (ar : farith) (mc : mconst) (e : vfld) (src : source) : vfld :=
  match src_e src with
  | None => e
  | Some v => fun c i j k => if src_region src c i j k
      then fa_sub ar (e c i j k) (fa_mul ar (fa_div ar (v c i j k) (m_eps mc c i j k)) (m_dt mc)) else e c i j k
  end.
(** fdtd.py:125 e += curl_h(h) / eps_t * dt, then the sources. *)
Definition step_e_fl (ar : farith) (g : fgrid) (mc : mconst) (st : fstate) (srcs : list source) : vfld :=
  fold_left (add_src_e_fl ar mc) srcs (fun c i j k =>
    fa_add ar (f_e st c i j k) (fa_mul ar (fa_div ar (curl_fl ar g true (f_h st) c i j k) (m_eps mc c i j k)) (m_dt mc))).
(** fdtd.py:166-167 h[source_region] -= source * dt. *)
Definition add_src_h_fl (ar : farith) (mc : mconst) (h : vfld) (src : source) : vfld :=
  match src_h src with
  | None => h
  | Some v => fun c i j k => if src_region src c i j k then fa_sub ar (h c i j k) (fa_mul ar (v c i j k) (m_dt mc)) else h c i j k
  end.
(** fdtd.py:153 h -= curl_e(e) * dt, then the sources. *)
Definition step_h_fl (ar : farith) (g : fgrid) (mc : mconst) (e h : vfld) (srcs : list source) : vfld :=
  fold_left (add_src_h_fl ar mc) srcs (fun c i j k => fa_sub ar (h c i j k) (fa_mul ar (curl_fl ar g false e c i j k) (m_dt mc))).
(** fdtd.py:171-229 step. *)
Definition step_fl (ar : farith) (g : fgrid) (mc : mconst) (st : fstate) (srcs : list source) : fstate :=
  let e := step_e_fl ar g mc st srcs in mkState e (step_h_fl ar g mc e (f_h st) srcs).
Fixpoint run_fl (ar : farith) (g : fgrid) (mc : mconst) (st : fstate) (srcs : list (list source)) : fstate :=
  match srcs with [] => st | s :: rest => run_fl ar g mc (step_fl ar g mc st s) rest end.
(** fdtd.py:39 dt = 1 / np.sqrt(np.sum(1 / self.spacing ** 2)) in binary64. *)
Definition dt64 (g : fgrid) : R :=
  let q a := if is_active g a then b64 (1 / b64 (g_spacing g a * g_spacing g a)) else 0 in
  b64 (1 / b64 (sqrt (b64 (b64 (q AX + q AY) + q AZ)))).
(** fdtd.py:350-360, utils.py:195-200 in binary64 (avg_axis with rounding). *)
Definition avg64 (s : shape3) (a : axis) (p : rfld) : rfld := fun i j k => b64 (b64 (p i j k + ralong a (prv (s a)) p i j k) / 2).
Definition eps64 (g : fgrid) : axis -> rfld := fun c =>
  match c with
  | AX => avg64 (g_shape g) AY (g_eps g)
  | AY => avg64 (g_shape g) AX (g_eps g)
  | AZ => avg64 (g_shape g) AY (avg64 (g_shape g) AX (g_eps g))
  end.
Definition const64 (g : fgrid) : mconst := mkConst (dt64 g) (eps64 g).
