(** Model of simphox/grid.py Grid.block_design, Grid.fill on the whole array, the failure points of Grid.add, the array shapes
    after set_eps, which permittivity buffer a grid owns, and the layer part of from_pattern (fdfd.py:285-297, fdtd.py:78-91).
    No proofs in this file.  Simplifications: exact real arithmetic; a permittivity is given cell by cell; None = exception. *)
From Coq Require Import Reals List Arith ZArith Bool.
From Verif Require Import Cx Arr Model_yee Model_grid.
Import ListNotations.
Local Open Scope R_scope.

(** ** grid.py:89-104 fill over the whole array: the last of the ndim axes. *)
Definition last_axis (g : gridp) : axis := match g_ndim g with 0%nat | 1%nat => AX | 2%nat => AY | _ => AZ end.
Definition zc (a : axis) (i j k : Z) : Z := match a with AX => i | AY => j | AZ => k end.
Definition fill (g : gridp) (height eps : R) (e : zfld) : zfld := fun i j k =>
  fill_last (g_shape g (last_axis g)) (g_spacing g (last_axis g)) height eps (fun _ => e i j k) (zc (last_axis g) i j k).

(** ** grid.py:280-322 block_design. *)
Record design := mkDesign {
  d_wg : box; d_wg_eps : R; d_wg_height : option R; d_sub_eps : R; d_sub_height : R; d_gap : R;
  d_block : option (box * R); d_sep : R * R; d_vertical : bool; d_rib : R }.
(** `if wg_height:` is false for None and for 0. *)
Definition given_height (d : design) : option R :=
  match d_wg_height d with Some h => if Req_EM_T h 0 then None else Some h | None => None end.
(** lines 303-305: waveguide.align(self.center), waveguide.valign(wg_height): the caller's Box is moved. *)
Definition placed (ctr : R * R) (d : design) : box :=
  let w := align_to ctr (d_wg d) in match given_height d with Some h => valign_to h true w | None => w end.
(** lines 304-307 *)
Definition base_height (ctr : R * R) (d : design) : R :=
  match given_height d with Some h => h | None => snd (b_min (placed ctr d)) end.
(** lines 309-310 *)
Definition half_pitch (d : design) : R := if Rlt_dec 0 (d_gap d) then d_gap d / 2 + fst (b_size (d_wg d)) / 2 else 0.
Definition wg_left (ctr : R * R) (d : design) : box := translate (- half_pitch d) 0 (placed ctr d).
Definition wg_right (ctr : R * R) (d : design) : box := translate (half_pitch d) 0 (placed ctr d).
(** lines 311-317: the perturbing blocks; vertical=True without a block is an AttributeError. *)
Definition blocks (ctr : R * R) (d : design) : option (list (box * R)) :=
  match d_vertical d, d_block d with
  | true, None => None
  | true, Some (b, e) =>
      Some [(translate 0 (fst (d_sep d)) (valign (wg_left ctr d) true true (align (wg_left ctr d) b)), e);
            (translate 0 (snd (d_sep d)) (valign (wg_right ctr d) true true (align (wg_right ctr d) b)), e)]
  | false, Some (b, e) =>
      Some [(translate (- fst (d_sep d)) 0 (halign (wg_left ctr d) false true (valign_to (base_height ctr d) true b)), e);
            (translate (snd (d_sep d)) 0 (halign (wg_right ctr d) true true (valign_to (base_height ctr d) true b)), e)]
  | false, None => Some []
  end.
Definition drawn (ctr : R * R) (d : design) : option (list (box * R)) :=
  match blocks ctr d with
  | Some bs => Some ((wg_left ctr d, d_wg_eps d) :: (wg_right ctr d, d_wg_eps d) :: bs)
  | None => None
  end.
(** lines 318-319: set_eps((cx, cy, 0), (sx, sy, 0), eps). *)
Definition xy0 (p : R * R) : axis -> R := fun a => match a with AX => fst p | AY => snd p | AZ => 0 end.
Definition draw1 (g : gridp) (i j k : Z) (acc : option R) (b : box * R) : option R :=
  match acc with
  | Some v => set_eps g (xy0 (b_center (fst b))) (xy0 (b_size (fst b))) (snd b) (fun _ _ _ => v) i j k
  | None => None
  end.
(** lines 300-302: rib, then substrate. *)
Definition layers (g : gridp) (rib sub core_eps sub_eps : R) (e : zfld) : zfld :=
  fill g sub sub_eps (if Rlt_dec 0 rib then fill g (rib + sub) core_eps e else e).
(** The permittivity at a cell after block_design. *)
Definition block_design (g : gridp) (ctr : R * R) (d : design) (e : zfld) (i j k : Z) : option R :=
  match drawn ctr d with
  | Some bs => fold_left (draw1 g i j k) bs (Some (layers g (d_rib d) (d_sub_height d) (d_wg_eps d) (d_sub_eps d) e i j k))
  | None => None
  end.
(** The same call made with a Box standing elsewhere (for instance where the previous call left it). *)
Definition with_wg (d : design) (b : box) : design :=
  mkDesign b (d_wg_eps d) (d_wg_height d) (d_sub_eps d) (d_sub_height d) (d_gap d) (d_block d) (d_sep d) (d_vertical d) (d_rib d).

(** ** fdfd.py:288-295, fdtd.py:82-89 from_pattern: fill(sub_z + rib_t, core), fill(sub_z, clad) before the component is added;
    spacing has 2 + (component_t > 0) entries and size 2 + (height > 0); the constructor raises unless they agree (grid.py:64-66). *)
Definition pattern_layers (g : gridp) (sub_z rib_t core_eps clad_eps : R) (e : zfld) : zfld :=
  fill g sub_z clad_eps (fill g (sub_z + rib_t) core_eps e).
Definition pattern_dims (height component_t : R) : option nat :=
  let sp := if Rlt_dec 0 component_t then 3%nat else 2%nat in
  let sz := if Rlt_dec 0 height then 3%nat else 2%nat in
  if Nat.eqb sp sz then Some sz else None.

(** ** grid.py:106-131 add with its failure points.  The grid: permittivity, number of components, ports. *)
Record gstate := mkG { gs_eps : Z -> Z -> Z -> R; gs_components : nat; gs_ports : list (R * R) }.
Inductive outcome := Done | ValueError | TypeError.
(** [pat]: the pixels of the pattern; [nports]: how many ports it has; [raises]: the outcome of the bounds test.
    zmin and thickness default to None: None arithmetic raises TypeError. *)
Definition add (g : gridp) (raises : bool) (pat : Z -> Z -> bool) (nports : nat) (eps : R) (zmin thickness : option R) (s : gstate) : outcome * gstate :=
  if raises then (ValueError, s) else
  let s1 := mkG (gs_eps s) (S (gs_components s)) (gs_ports s) in
  let paint (f : Z -> bool) := fun i j k => if (pat i j && f k)%bool then eps else gs_eps s i j k in
  let finish (e : Z -> Z -> Z -> R) :=
    match zmin, thickness with
    | Some z, Some t => (Done, mkG e (S (gs_components s)) (repeat (z + t / 2, t) nports))
    | _, _ => if Nat.eqb nports 0 then (Done, mkG e (S (gs_components s)) []) else (TypeError, mkG e (S (gs_components s)) (gs_ports s))
    end in
  if Nat.eqb (g_ndim g) 2 then finish (paint (fun _ => true))
  else match zmin, thickness with
       | Some z, Some t => finish (paint (in_slice (g_shape g AZ) (trunc_z (z / g_spacing g AX)) (trunc_z ((z + t) / g_spacing g AY))))
       | _, _ => (TypeError, s1)
       end.

(** ** Array shapes: grid.py:69 (eps has the shape of the grid), 146-148 (set_eps stores eps_3d.squeeze()), 166 (mask). *)
Definition squeeze (sh : list nat) : list nat := filter (fun n => negb (Nat.eqb n 1)) sh.
Definition shape3_of (sh : list nat) : list nat := sh ++ repeat 1%nat (3 - length sh).
(** grid.py:101 self.eps[..., :m]: the axis fill works on, as an index into the grid's shape: the last axis of the current array,
    whose axes are the axes of the grid longer than one cell once it has been squeezed. *)
Definition axes_of (sh : list nat) : list nat := seq 0 (length sh).
Definition squeezed_axes (sh : list nat) : list nat := filter (fun a => negb (Nat.eqb (nth a sh 1%nat) 1)) (axes_of sh).
Definition fill_axis (squeezed : bool) (sh : list nat) : option nat :=
  match rev (if squeezed then squeezed_axes sh else axes_of sh) with a :: _ => Some a | [] => None end.

(** ** Which buffer a grid writes: grid.py:76 keeps the caller's array object (fdfd.py:116 from_simgrid passes simgrid.eps),
    a scalar allocates; fill(height > 0), add and set_eps (a reshaped view) write into the buffer, fill(height <= 0) allocates. *)
Definition buf := nat -> R.
Record world := mkWorld { w_mem : nat -> buf; w_next : nat }.
Inductive edit := InPlace (f : buf -> buf) | Fresh (f : buf -> buf).
Definition new_scalar (w : world) (v : R) : world * nat :=
  (mkWorld (fun l => if Nat.eqb l (w_next w) then (fun _ => v) else w_mem w l) (S (w_next w)), w_next w).
Definition new_from_array (w : world) (arr : nat) : world * nat := (w, arr).
Definition apply_edit (w : world) (grid : nat) (e : edit) : world * nat :=
  match e with
  | InPlace f => (mkWorld (fun l => if Nat.eqb l grid then f (w_mem w grid) else w_mem w l) (w_next w), grid)
  | Fresh f => (mkWorld (fun l => if Nat.eqb l (w_next w) then f (w_mem w grid) else w_mem w l) (S (w_next w)), w_next w)
  end.
Fixpoint apply_edits (w : world) (grid : nat) (es : list edit) : world * nat :=
  match es with [] => (w, grid) | e :: rest => let (w', g') := apply_edit w grid e in apply_edits w' g' rest end.
