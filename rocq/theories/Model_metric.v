(** Model of the scalar figures of merit: SimGrid.fidelity (simphox/sim.py), splitter_metrics and gaussian_fn
    (simphox/utils.py), ModeLibrary.te_ratio (simphox/mode.py).  No proofs in this file.
    Simplifications: exact arithmetic; a NaN result is None; port names are numbers. *)
From Coq Require Import Reals List Arith Bool.
From Verif Require Import Cx Arr.
Import ListNotations.
Local Open Scope R_scope.

(** Keys of desired_sparams: a port name or a (port, mode) pair. *)
Inductive dkey := DName (p : nat) | DPair (p m : nat).
(** sim.py:486 [(port, 0) if isinstance(port, str) else port]. *)
Definition dkey_pair (k : dkey) : nat * nat := match k with DName p => (p, O) | DPair p m => (p, m) end.
Definition pair_eqb (a b : nat * nat) : bool := (Nat.eqb (fst a) (fst b) && Nat.eqb (snd a) (snd b))%bool.
(** list.index: position of the first occurrence; ValueError if there is none. *)
Fixpoint list_index (l : list (nat * nat)) (k : nat * nat) : option nat :=
  match l with
  | [] => None
  | x :: r => if pair_eqb x k then Some O else match list_index r k with Some i => Some (S i) | None => None end
  end.
(** sim.py:484-487: s = zeros; s[measure_info.index(key)] = weight for every entry of the dictionary, in order. *)
Fixpoint fill_desired (mi : list (nat * nat)) (d : list (dkey * C)) (s : vec) : option vec :=
  match d with
  | [] => Some s
  | (k, w) :: r => match list_index mi (dkey_pair k) with
      | Some i => fill_desired mi r (fun j => if Nat.eqb j i then w else s j)
      | None => None
      end
  end.
(** sim.py:483 the default measure_info: the fundamental mode of every port. *)
Definition default_info (ports : list nat) : list (nat * nat) := map (fun p => (p, O)) ports.
(** np.linalg.norm of the first n entries. *)
Definition norm2 (n : nat) (x : vec) : R := sqrt (Rsum n (fun i => Cn2 (x i))).
(** sim.py:488 s / np.linalg.norm(s); NaN for the zero vector. *)
Definition fidelity_target (mi : list (nat * nat)) (d : list (dkey * C)) : option vec :=
  match fill_desired mi d (fun _ => C0) with
  | Some s => if Req_EM_T (norm2 (length mi) s) 0 then None else Some (fun i => Cscal (/ norm2 (length mi) s) (s i))
  | None => None
  end.
(** sim.py:490-500 obj: the cost of measured s-parameters x (n of them) for target s and insertion weight w. *)
Definition fidelity_cost (n : nat) (s : vec) (w : R) (x : vec) : option R :=
  if Req_EM_T w 0 then Some (- Cn2 (Csum n (fun i => s i * x i)%C))
  else if Req_EM_T (norm2 n x) 0 then None
  else Some (- Cn2 (Csum n (fun i => s i * Cscal (/ norm2 n x) (x i))%C) * (1 - w) - (norm2 n x) ^ 2 * w).
Definition fidelity (mi : list (nat * nat)) (d : list (dkey * C)) (w : R) (x : vec) : option R :=
  match fidelity_target mi d with Some s => fidelity_cost (length mi) s w x | None => None end.

(** utils.py:229-238 splitter_metrics: (reflectivity, transmissivity, reflection, insertion, upper, lower) of the s-parameters of
    the n ports, those named a0, b0, b1 at positions a0, b0, b1 (KeyError if a name is missing: positions are given here). *)
Record metrics := mkMetrics { m_reflectivity : R; m_transmissivity : R; m_reflection : R; m_insertion : R; m_upper : R; m_lower : R }.
Definition splitter_metrics (n a0 b0 b1 : nat) (s : vec) : option metrics :=
  let p := fun i => Cn2 (s i) in
  if Req_EM_T (p b0 + p b1) 0 then None
  else Some (mkMetrics (p b0 / (p b0 + p b1)) (p b1 / (p b0 + p b1)) (p a0) (Rsum n p) (p b0) (p b1)).

(** mode.py:396-403 te_ratio of a 2-D mode with transverse magnetic components hx, hy on n cells: norms[0] ** 2 / sum(norms ** 2). *)
Definition te_ratio (ndim n : nat) (hx hy : vec) : option R :=
  if Nat.eqb ndim 2 then
    let nx := norm2 n hx in let ny := norm2 n hy in
    if Req_EM_T (nx ^ 2 + ny ^ 2) 0 then None else Some (nx ^ 2 / (nx ^ 2 + ny ^ 2))
  else None.

(** utils.py:336-364 gaussian_fn.  [fwidth] = None is np.inf; then the returned function is 0 or NaN everywhere and None here.
    The guard of line 353 ([pulse_width <= 0 and pulse_width == np.inf]) is false for every number. *)
Definition gauss_fwidth (pulse_width : R) (fwidth : option R) : option R :=
  if Rlt_dec 0 pulse_width then Some (2 * PI / pulse_width) else fwidth.
Definition gauss_t0 (fw start factor : R) : R := start + 2 * PI / fw * factor.
Definition gaussian_fn (wavelength pulse_width : R) (fwidth : option R) (start factor chirp t : R) : option C :=
  match gauss_fwidth pulse_width fwidth with
  | None => None
  | Some fw =>
      let k0 := 2 * PI / wavelength in let t0 := gauss_t0 fw start factor in
      if Rlt_dec start t then Some (cis (k0 * (t - t0)) * Cexp (Cscal ((t - t0) ^ 2) (mkC (- fw) chirp)))%C else Some C0
  end.
