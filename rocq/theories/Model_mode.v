(** Model of simphox/mode.py (mode operators, mode fields, evolve, dispersion_sweep, place) and of the orientation of fields
    at ports: grid.py view_fn, sim.py SimCrossSection.profile, SimGrid.modes, to_2d, get_sim_sparams_fn, port_source.
    No proofs in this file.
    Simplifications: exact arithmetic; the eigensolver is not modelled: theorems quantify over every eigenpair.
    A ModeSolver has no PML and no Bloch phase (mode.py:75-81), and real uniform pixels. *)
From Coq Require Import Reals List Arith ZArith Bool.
From Verif Require Import Cx Arr Model_coupling Model_yee Model_fdfd Model_grid.
Import ListNotations.
Local Open Scope R_scope.

(** mode.py:72-88: what the operators depend on. [q_h a] is the spacing along axis a. *)
Record mode_solver := mkQ { q_shape : shape3; q_h : axis -> R; q_k0 : R; q_eps : rfld }.
Definition q_dx (q : mode_solver) : pixel := uniform_dx (q_h q).
Definition q_n (q : mode_solver) : nat := npix (q_shape q).
Definition q_df (q : mode_solver) : axis -> mat := deriv (q_shape q) (q_dx q) (fun _ => C1) false.
Definition q_db (q : mode_solver) : axis -> mat := deriv (q_shape q) (q_dx q) (fun _ => C1) true.
(** grid.py:464-473 *)
Definition q_eps_t (q : mode_solver) : axis -> rfld := yee_avg (q_shape q) (q_eps q).

(** mode.py:108-118 waveguide_mode_matrix, ndim = 2, as 2 x 2 blocks (rows and columns AX, AY). *)
Definition eps_10 (q : mode_solver) (r : axis) : rfld := match r with AX => q_eps_t q AY | _ => q_eps_t q AX end.
Definition m2_left (q : mode_solver) (r : axis) : mat := fun x y =>
  match r with AX => (- q_df q AY x y)%C | _ => q_df q AX x y end.
Definition m2_right (q : mode_solver) (c : axis) : mat := fun x y =>
  match c with AX => (- q_db q AY x y)%C | _ => q_db q AX x y end.
Definition wg_matrix (q : mode_solver) (r c : axis) : mat := fun x y =>
  ((if axis_eqb r c then RtoC (q_k0 q * q_k0 q) * diagm (q_shape q) (eps_10 q r) x y else C0)
   + matmul (q_n q) (matmul (q_n q) (matmul (q_n q) (diagm (q_shape q) (eps_10 q r)) (m2_left q r))
                                    (diagm (q_shape q) (inv_eps (q_eps_t q AZ)))) (m2_right q c) x y
   + matmul (q_n q) (q_db q r) (q_df q c) x y)%C.
(** mode.py:119-120, ndim = 1. *)
Definition wg_matrix_1d (q : mode_solver) : mat := fun x y =>
  (RtoC (q_k0 q * q_k0 q) * diagm (q_shape q) (q_eps q) x y + matmul (q_n q) (q_df q AX) (q_db q AX) x y)%C.

(** mode.py:195-206: the magnetic field of the eigenvector (vx, vy) with eigenvalue beta ** 2 > 0, beta = np.sqrt(beta ** 2) > 0,
    times the phase factor that makes its first entry real. *)
Definition mode_h (q : mode_solver) (beta : R) (vx vy : vec) : vfld := fun c i j k =>
  let hz := fun r => ((matvec (q_n q) (q_df q AX) vx r + matvec (q_n q) (q_df q AY) vy r) / (Ci * RtoC beta))%C in
  (unravel_f (q_shape q) (match c with AX => vx | AY => vy | AZ => hz end) i j k * cis (- Carg (vx 0%nat)))%C.
(** mode.py:140-156 h2e with beta; mode.py:336-337 ModeLibrary.e, ndim = 2. *)
Definition mode_e (q : mode_solver) (beta : R) (h : vfld) : vfld := fun c i j k =>
  (curl_beta_fn (diff_fn (q_shape q) (q_dx q) true) beta h c i j k / (Ci * RtoC (q_k0 q) * RtoC (q_eps_t q c i j k)))%C.
(** mode.py:138 e2h with beta. *)
Definition mode_e2h (q : mode_solver) (beta : R) (e : vfld) : vfld := fun c i j k =>
  (curl_beta_fn (diff_fn (q_shape q) (q_dx q) false) beta e c i j k / (Ci * RtoC (q_k0 q)))%C.

(** mode.py:303-344 ModeLibrary.h and e, ndim = 1: [m] is the (phase-normalised) eigenvector, shape (n, 1, 1). *)

Definition h_1d (q : mode_solver) (tm_2d : bool) (beta : R) (m : fld) : vfld := fun c i j k =>
  if tm_2d then match c with AY => m i j k | _ => C0 end
  else match c with
       | AX => (Ci * RtoC beta * m i j k / (Ci * RtoC (q_k0 q)))%C
       | AY => (C0 / (Ci * RtoC (q_k0 q)))%C
       | AZ => (- ((m i j k - roll_p1 (q_shape q) AX m i j k) / RtoC (q_h q AX)) / (Ci * RtoC (q_k0 q)))%C
       end.
Definition e_1d (q : mode_solver) (tm_2d : bool) (beta : R) (m : fld) : vfld := fun c i j k =>
  if tm_2d
  then match c with
       | AX => (Ci * RtoC beta * m i j k / (Ci * RtoC (q_k0 q) * RtoC (q_eps_t q AX i j k)))%C
       | AY => (C0 / (Ci * RtoC (q_k0 q) * RtoC (q_eps_t q AY i j k)))%C
       | AZ => (- ((roll_m1 (q_shape q) AX m i j k - m i j k) / RtoC (q_h q AX)) / (Ci * RtoC (q_k0 q) * RtoC (q_eps_t q AZ i j k)))%C
       end
  else match c with AY => m i j k | _ => C0 end.

(** mode.py:357-381, 474-485, 566-567: n, phase, beat_length. *)
Definition mode_n (k0 beta : R) : R := beta / k0.
Definition mode_phase (k0 beta len : R) : R := k0 * len * mode_n k0 beta.
Definition beat_length (beta0 beta1 : R) : R := 2 * PI / (beta0 - beta1).
(** mode.py:545-564 evolve at one length: sum over the weights of field * exp(i beta length) * weight. *)
Fixpoint evolve (modes : list (vfld * R)) (weights : list R) (len : R) : vfld := fun c i j k =>
  match modes, weights with
  | (f, beta) :: ms, w :: ws => (f c i j k * cis (beta * len) * RtoC w + evolve ms ws len c i j k)%C
  | _, _ => C0
  end.

(** mode.py:208-225 dispersion_sweep: the operator handed to the eigensolver for each wavelength.  self.solve(m, wavelength): the second
    argument is beta_guess; self.wavelength does not change.  With pbar=None, [range(wavelengths)] is a TypeError unless the array has
    a single (integer) entry; [None] = TypeError. *)
Definition k0_of (wavelength : R) : R := 2 * PI / wavelength.
Definition with_wavelength (q : mode_solver) (w : R) : mode_solver := mkQ (q_shape q) (q_h q) (k0_of w) (q_eps q).
Record solve_call := mkCall { call_solver : mode_solver; call_beta_guess : R }.
Definition dispersion_sweep (q : mode_solver) (pbar_given : bool) (wavelengths : list R) : option (list solve_call) :=
  if pbar_given then Some (map (fun w => mkCall q w) wavelengths) else None.
(** mode.py:240-266 update_wavelength *)
Definition update_wavelength (q : mode_solver) (w : R) : mode_solver := with_wavelength q w.

(** ** Orientation of fields at ports.  grid.py:235-247 view_fn: component c' of the view is component [view_axes va c'] of the field;
    sim.py:63-80 profile: component c of the profile is sign * component [prof_axes pa c] of the mode. *)
Definition view_axes (va : axis) (c : axis) : axis :=
  match va, c with
  | AX, AX => AY | AX, AY => AZ | AX, AZ => AX
  | AY, AX => AX | AY, AY => AZ | AY, AZ => AY
  | AZ, c => c
  end.
Definition prof_axes (pa : axis) (c : axis) : axis :=
  match pa, c with
  | AX, AX => AZ | AX, AY => AX | AX, AZ => AY
  | AY, AX => AX | AY, AY => AZ | AY, AZ => AY
  | AZ, c => c
  end.
Definition prof_sign (pa : axis) (c : axis) : R :=
  match pa, c with AX, AY => -1 | AZ, AZ => -1 | _, _ => 1 end.
Definition comps := axis -> C.
Definition view_c (va : axis) (f : comps) : comps := fun c => f (view_axes va c).
Definition profile_c (pa : axis) (f : comps) : comps := fun c => (RtoC (prof_sign pa c) * f (prof_axes pa c))%C.
(** utils.py:152-155, without the half-cell averages: the z component of e x conj(h). *)
Definition poynting_z (e h : comps) : C := (e AX * Cconj (h AY) - e AY * Cconj (h AX))%C.

(** ** mode.py:487-520 place.  ndim = 1 (a 2-d simulation): x[region[:2]] = modes[idx], the region being a slice along one axis and an
    index along the other.  [a, b): the slice, c: the index; the mode has len entries.  None = ValueError / IndexError.
    Numpy broadcasts a mode of one entry over the slice. *)
Definition place_1d (n m a b c : Z) (len : Z) (mode : Z -> C) (i j : Z) : option C :=
  let lo := np_bound n a in let hi := np_bound n b in
  match np_index m c with
  | None => None
  | Some col =>
    if (Z.eqb (Z.max 0 (hi - lo)) len || Z.eqb len 1)%bool then
      Some (if (in_slice n a b i && Z.eqb j col)%bool then (if Z.eqb len 1 then mode 0%Z else mode (i - lo)%Z) else C0)
    else None
  end.
(** ndim = 2 (a 3-d simulation): x has shape (3, X, Y, Z) and is indexed with (None,) + region: None inserts an axis, so region[0]
    selects COMPONENTS, region[1] selects along x and region[2] along y.  A selector of n entries keeps: *)
Definition sel_len (n : Z) (s : Model_grid.sel) : option (list Z) :=
  match s with
  | SSlice a b => Some [Z.max 0 (np_bound n b - np_bound n a)]
  | SIndex c => match np_index n c with Some _ => Some [] | None => None end
  end.
(** The shape of x[(None,) + region]; None = IndexError. *)
Definition place_target (X Y Zn : Z) (r0 r1 r2 : Model_grid.sel) : option (list Z) :=
  match sel_len 3 r0, sel_len X r1, sel_len Y r2 with
  | Some a, Some b, Some c => Some (1%Z :: a ++ b ++ c ++ [Zn])
  | _, _, _ => None
  end.
(** numpy broadcasting of a value of shape [v] into a target of shape [t]: align at the end; extra leading ones of v are dropped. *)
Fixpoint bcast_rev (v t : list Z) : bool :=
  match v, t with
  | [], _ => true
  | x :: v', [] => (Z.eqb x 1 && bcast_rev v' [])%bool
  | x :: v', y :: t' => ((Z.eqb x y || Z.eqb x 1) && bcast_rev v' t')%bool
  end.
Definition can_assign (v t : list Z) : bool := bcast_rev (rev v) (rev t).
(** mode.py:505-516: the shape of h.transpose((0, 1 + axes)); h has shape (3, p, q, 1). *)
Definition placed_shape (place_axis : axis) (p q : Z) : list Z :=
  match place_axis with AX => [3; 1; p; q]%Z | AY => [3; p; 1; q]%Z | AZ => [3; p; q; 1]%Z end.
Definition place_3d_raises (X Y Zn : Z) (place_axis : axis) (p q : Z) (r0 r1 r2 : Model_grid.sel) : bool :=
  match place_target X Y Zn r0 r1 r2 with None => true | Some t => negb (can_assign (placed_shape place_axis p q) t) end.

(** ** sim.py:106-126 SimGrid.modes under functools.lru_cache: keyed by (center, size, wavelength, num_modes), not by eps.
    [solve]: the cross-section solver, as a function of the permittivity and of the key. *)
Section ModesCache.
Variables K V E : Type.
Variable key_eq : forall a b : K, {a = b} + {a <> b}.
Variable solve : E -> K -> V.
Record mstate := mkM { m_eps : E; m_cache : list (K * V) }.
Inductive mop := MWrite (f : E -> E) | MModes (k : K).
Fixpoint lookup (l : list (K * V)) (k : K) : option V :=
  match l with [] => None | (k', v) :: r => if key_eq k' k then Some v else lookup r k end.
(** lru_cache() keeps 128 entries; the model keeps all. *)
Definition mstep (st : mstate) (o : mop) : mstate * option V :=
  match o with
  | MWrite f => (mkM (f (m_eps st)) (m_cache st), None)
  | MModes k => match lookup (m_cache st) k with
      | Some v => (st, Some v)
      | None => let v := solve (m_eps st) k in (mkM (m_eps st) ((k, v) :: m_cache st), Some v)
      end
  end.
Fixpoint mrun (st : mstate) (ops : list mop) : mstate :=
  match ops with [] => st | o :: r => mrun (fst (mstep st o)) r end.
End ModesCache.

(** ** sim.py:366-421 to_2d on a 3-d grid.  The slab's ModeSolver is built with size = np.asarray((nz,)) * self.spacing (three numbers)
    and the scalar spacing[-1]; Grid.__init__ (grid.py:67, 79-81) then compares the shape with eps.shape. *)
Definition to_2d_slab_shape (nz : Z) (spacing : axis -> R) : list Z :=
  map (fun a => around (IZR nz * spacing a / spacing AZ)) [AX; AY; AZ].
Definition to_2d_raises (nz : Z) (spacing : axis -> R) : bool :=
  if list_eq_dec Z.eq_dec (to_2d_slab_shape nz spacing) [nz] then false else true.
(** sim.py:397, 408: the "effective" permittivity where the column equals the slab (tm=False): (beta / k0)^2 with k0 = 2 pi * wavelength. *)
Definition to_2d_slab_eps (wavelength beta : R) : R := (beta / ((2 * PI) * wavelength)) ^ 2.

(** ** sim.py:283-320 get_sim_sparams_fn.  The fields are measured at [ports] (get_measure_fn without arguments), the divisor is
    entry measure_info.index(source_info).  None = ValueError (not in list) / IndexError. *)
Fixpoint index_of (l : list (nat * nat)) (x : nat * nat) : option nat :=
  match l with
  | [] => None
  | y :: r => if (Nat.eqb (fst y) (fst x) && Nat.eqb (snd y) (snd x))%bool then Some O else
      match index_of r x with Some n => Some (S n) | None => None end
  end.
Definition sparam_divisor (ports : list nat) (measure_info : option (list (nat * nat))) (source : option (nat * nat)) : option (nat * nat) :=
  let info := match measure_info with None => map (fun p => (p, O)) ports | Some l => l end in
  match (match source with Some s => Some s | None => nth_error info 0 end) with
  | None => None
  | Some s => match index_of info s with None => None | Some i => nth_error (map (fun p => (p, O)) ports) i end
  end.

(** ** sim.py:184-188 port_source, unidirectional: the amplitude of plane x (in cells along the propagation axis); the source plane is
    at p0, [shift] = +1 or -1 (np.roll; no wrap-around assumed). *)
Definition uni_source (beta dx : R) (p0 shift : Z) (x : Z) : C :=
  if Z.eqb x p0 then C1 else if Z.eqb x (p0 + shift) then cis (- dx * beta - PI) else C0.
