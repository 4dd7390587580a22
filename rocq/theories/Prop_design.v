(** C120-C126: waveguide cross sections, layers, adding components, shapes and buffers of a grid. *)
From Coq Require Import Reals List Arith ZArith Bool.
From Verif Require Import Cx Arr Model_yee Model_grid Spec_grid Model_design Spec_design Proof_design.
Import ListNotations.
Local Open Scope R_scope.

(** ** C120 block_design: where the boxes are, and what is drawn. *)
(** The two waveguides have the requested size, are mirror images about the centre of the grid, stand at the requested height
    (centred when none is given) and are [gap] apart. *)
Theorem C120_pair_partial : forall ctr d l, drawn ctr d = Some l -> exists w0 w1 bs, l = (w0, d_wg_eps d) :: (w1, d_wg_eps d) :: bs /\
  b_size w0 = b_size (d_wg d) /\ b_size w1 = b_size (d_wg d) /\
  snd (b_min w0) = snd (b_min w1) /\
  (forall h, d_wg_height d = Some h -> h <> 0 -> snd (b_min w0) = h) /\
  (d_wg_height d = None -> snd (b_center w0) = snd ctr) /\
  (fst (b_center w0) + fst (b_center w1)) / 2 = fst ctr /\
  (0 < d_gap d -> fst (b_min w1) - fst (b_max w0) = d_gap d) /\ (d_gap d <= 0 -> w0 = w1).
Proof. exact pair_geometry. Qed.
(** The perturbing blocks keep their size and are [sep] away from their waveguide, sideways or above. *)
Theorem C120_blocks_partial : forall ctr d b eps l, d_block d = Some (b, eps) -> drawn ctr d = Some l -> exists w0 w1 b0 b1,
  l = [(w0, d_wg_eps d); (w1, d_wg_eps d); (b0, eps); (b1, eps)] /\ b_size b0 = b_size b /\ b_size b1 = b_size b /\
  (d_vertical d = false -> fst (b_min w0) - fst (b_max b0) = fst (d_sep d) /\ fst (b_min b1) - fst (b_max w1) = snd (d_sep d) /\
     snd (b_min b0) = snd (b_min w0) /\ snd (b_min b1) = snd (b_min w1)) /\
  (d_vertical d = true -> snd (b_min b0) - snd (b_max w0) = fst (d_sep d) /\ snd (b_min b1) - snd (b_max w1) = snd (d_sep d) /\
     fst (b_center b0) = fst (b_center w0) /\ fst (b_center b1) = fst (b_center w1)).
Proof. exact block_geometry. Qed.
(** In pixels: the widths are exact for widths of whole cells, the drawn gap is at most one pixel off. *)
Theorem C120_pixel_gap_partial : forall g ctr d l w0 w1 bs (s : Z), g_ndim g = 2%nat -> 0 < g_spacing g AX -> 0 < d_gap d -> (0 < s)%Z ->
  fst (b_size (d_wg d)) = IZR s * g_spacing g AX -> drawn ctr d = Some l -> l = w0 :: w1 :: bs ->
  let lo w := box_lo g (xy0 (b_center (fst w))) (xy0 (b_size (fst w))) AX in
  let len w := box_len g (xy0 (b_size (fst w))) AX in
  len w0 = s /\ len w1 = s /\ Rabs (IZR (lo w1 - (lo w0 + len w0)) - d_gap d / g_spacing g AX) <= 1.
Proof. exact gap_pixels. Qed.
(** The full claim (a gap of whole cells is drawn) is false: two waveguides of 2 cells, 1 cell apart, come out as one solid bar. *)
Theorem C120_gap_refuted : forall e, (forall i, (3 <= i < 7)%Z -> block_design g10 (5, 5) pair_design e i 4%Z 0%Z = Some 12) /\
  d_gap pair_design = g_spacing g10 AX /\ fst (b_size (d_wg pair_design)) = 2 * g_spacing g10 AX.
Proof. exact gap_vanishes. Qed.
(** A requested height of 0 is ignored: the waveguides are centred instead. *)
Theorem C120_zero_height_refuted : forall ctr d l, d_wg_height d = Some 0 -> drawn ctr d = Some l -> exists w0 w1 bs, l = w0 :: w1 :: bs /\
  snd (b_center (fst w0)) = snd ctr /\ snd (b_center (fst w1)) = snd ctr.
Proof. exact zero_height. Qed.
Example C120_case : exists l, drawn (5, 5) blk_design = Some l /\ length l = 4%nat /\ 0 < d_gap blk_design.
Proof. exact geometry_instance. Qed.

(** ** C121 block_design does not depend on where the waveguide Box stands, and a second identical call changes nothing. *)
Theorem C121_position_independent : forall g ctr d b e i j k, b_size b = b_size (d_wg d) -> b_spacing b = b_spacing (d_wg d) ->
  block_design g ctr (with_wg d b) e i j k = block_design g ctr d e i j k.
Proof. exact design_any. Qed.
Theorem C121_repeat : forall g ctr d e e' i j k v, block_design g ctr d e i j k = Some v -> e' i j k = v ->
  block_design g ctr (with_wg d (placed ctr d)) e' i j k = Some v.
Proof. exact design_twice. Qed.
Example C121_case : forall e, block_design g10 (5, 5) pair_design e 4%Z 4%Z 0%Z = Some 12.
Proof. intro e. exact (proj1 (gap_vanishes e) 4%Z (conj (Z.le_succ_diag_r 3) (eq_refl))). Qed.

(** ** C122 substrate and rib: below [sub] the substrate, from there to [sub + rib] the core, above the old permittivity. *)
Theorem C122_block_layers_partial : forall g rib sub ce se e i j k, (0 < g_ndim g <= 3)%nat -> 0 < rib -> 0 < sub -> 0 < g_spacing g (up g) -> cell g i j k ->
  (top g i j k <= sub -> layers g rib sub ce se e i j k = se) /\
  (sub < top g i j k <= rib + sub -> layers g rib sub ce se e i j k = ce) /\
  (rib + sub < top g i j k -> layers g rib sub ce se e i j k = e i j k).
Proof. exact layers_exact_up. Qed.
Theorem C122_pattern_layers_partial : forall g rib sub ce se e i j k, (0 < g_ndim g <= 3)%nat -> 0 <= rib -> 0 < sub -> 0 < g_spacing g (up g) -> cell g i j k ->
  (top g i j k <= sub -> pattern_layers g sub rib ce se e i j k = se) /\
  (sub < top g i j k <= sub + rib -> pattern_layers g sub rib ce se e i j k = ce) /\
  (sub + rib < top g i j k -> pattern_layers g sub rib ce se e i j k = e i j k).
Proof. exact pattern_layers_exact_up. Qed.
(** With no substrate (the default) every cell becomes substrate and the rib is lost. *)
Theorem C122_no_substrate_refuted : forall g rib sub ce se e i j k, sub <= 0 ->
  layers g rib sub ce se e i j k = se /\ pattern_layers g sub rib ce se e i j k = se.
Proof. exact no_substrate. Qed.
Example C122_case : 0 < 1 /\ 0 < 2 /\ 0 < g_spacing g10 (up g10) /\ cell g10 3%Z 1%Z 0%Z /\ cell g10 3%Z 2%Z 0%Z /\ cell g10 3%Z 5%Z 0%Z /\
  layers g10 1 2 12 4 (fun _ _ _ => 1) 3%Z 1%Z 0%Z = 4 /\ layers g10 1 2 12 4 (fun _ _ _ => 1) 3%Z 2%Z 0%Z = 12 /\ layers g10 1 2 12 4 (fun _ _ _ => 1) 3%Z 5%Z 0%Z = 1.
Proof. exact layers_instance. Qed.

(** ** C123 from_pattern constructs a grid exactly when its height and the component's thickness are both positive or both not. *)
Theorem C123_dims_iff : forall height t, (exists n, pattern_dims height t = Some n) <-> (0 < height <-> 0 < t).
Proof. exact dims_iff. Qed.
Example C123_case : pattern_dims 0 0 = Some 2%nat /\ pattern_dims 2 1 = Some 3%nat /\ pattern_dims 2 0 = None.
Proof. exact dims_instance. Qed.

(** ** C124 add is all or nothing. *)
Theorem C124_value_error_partial : forall g pat np eps z t s, add g true pat np eps z t s = (ValueError, s).
Proof. exact add_value_error. Qed.
Theorem C124_success_partial : forall g pat np eps z t s, fst (add g false pat np eps (Some z) (Some t) s) = Done /\
  gs_ports (snd (add g false pat np eps (Some z) (Some t) s)) = repeat (z + t / 2, t) np /\
  gs_components (snd (add g false pat np eps (Some z) (Some t) s)) = S (gs_components s).
Proof. exact add_with_height. Qed.
(** Exactly which cells of a 3-D grid change: those of the pattern whose top, measured with the x spacing, is above zmin and, measured with the
    y spacing, is at most zmin + thickness. *)
Theorem C124_cells_partial : forall g pat np eps z t s i j k, g_ndim g = 3%nat -> 0 < g_spacing g AX -> 0 < g_spacing g AY -> 0 <= z -> 0 < t -> (0 <= k < g_shape g AZ)%Z ->
  let e := gs_eps (snd (add g false pat np eps (Some z) (Some t) s)) i j k in
  (pat i j = true -> z < (IZR k + 1) * g_spacing g AX -> (IZR k + 1) * g_spacing g AY <= z + t -> e = eps) /\
  (pat i j = false \/ (IZR k + 1) * g_spacing g AX <= z \/ z + t < (IZR k + 1) * g_spacing g AY -> e = gs_eps s i j k).
Proof. exact add_cells. Qed.
Print Assumptions C124_cells_partial.
(** With the default zmin and thickness a component with ports raises TypeError after the grid has been edited. *)
Theorem C124_atomic_2d_refuted : forall g pat np eps s i j k, g_ndim g = 2%nat -> (0 < np)%nat -> pat i j = true ->
  let r := add g false pat np eps None None s in
  fst r = TypeError /\ gs_eps (snd r) i j k = eps /\ gs_components (snd r) = S (gs_components s) /\ gs_ports (snd r) = gs_ports s.
Proof. exact add_partial_2d. Qed.
Theorem C124_atomic_3d_refuted : forall g pat np eps s, g_ndim g = 3%nat ->
  let r := add g false pat np eps None None s in
  fst r = TypeError /\ gs_eps (snd r) = gs_eps s /\ gs_components (snd r) = S (gs_components s).
Proof. exact add_partial_3d. Qed.
Example C124_case : g_ndim g10 = 2%nat.
Proof. reflexivity. Qed.

(** ** C125 set_eps keeps the shape of the permittivity array: exactly when no axis has a single cell. *)
Theorem C125_shape_partial : forall sh, squeeze (shape3_of sh) = sh <-> (forall n, In n sh -> n <> 1%nat).
Proof. exact squeeze_keeps_iff. Qed.
(** Otherwise fill works along another axis afterwards. *)
Theorem C125_fill_axis_refuted : fill_axis false [4; 1]%nat = Some 1%nat /\ fill_axis true [4; 1]%nat = Some 0%nat.
Proof. exact fill_axis_shifts. Qed.
Example C125_case : squeeze (shape3_of [4; 6]%nat) = [4; 6]%nat /\ squeeze (shape3_of [4; 1]%nat) = [4]%nat.
Proof. split; reflexivity. Qed.

(** ** C126 editing one grid never changes another: true of grids that do not share a buffer, in particular of a grid built
    from a scalar and every grid made before it. *)
Theorem C126_other_partial : forall es w g1 g2, g1 <> g2 -> (g1 < w_next w)%nat -> (g2 < w_next w)%nat ->
  w_mem (fst (apply_edits w g1 es)) g2 = w_mem w g2.
Proof. exact edits_other. Qed.
Theorem C126_scalar_partial : forall w v g2 es, (g2 < w_next w)%nat ->
  let (w', g1) := new_scalar w v in w_mem (fst (apply_edits w' g1 es)) g2 = w_mem w g2.
Proof. exact scalar_fresh. Qed.
(** False of grids built from the same array (FDFD.from_simgrid does that): an edit shows in both and in the caller's array. *)
Theorem C126_shared_refuted : forall w arr f c, (f (w_mem w arr) c <> w_mem w arr c) ->
  let (w1, ga) := new_from_array w arr in let (w2, gb) := new_from_array w1 arr in
  let (w3, _) := apply_edit w2 ga (InPlace f) in w_mem w3 gb c <> w_mem w2 gb c /\ w_mem w3 arr c <> w_mem w arr c.
Proof. exact shared_changes. Qed.
Example C126_case : let w := mkWorld (fun _ _ => 1) 2%nat in
  let es := [InPlace (fun _ _ => 5); Fresh (fun b i => b i + 1); InPlace (fun b i => b i * 2)] in
  w_mem (fst (apply_edits w 0%nat es)) 1%nat 3%nat = 1 /\
  w_mem (fst (apply_edits w 0%nat es)) (snd (apply_edits w 0%nat es)) 3%nat = 12.
Proof. exact buffers_instance. Qed.

Print Assumptions C120_pair_partial.
Print Assumptions C120_blocks_partial.
Print Assumptions C120_pixel_gap_partial.
Print Assumptions C120_gap_refuted.
Print Assumptions C121_position_independent.
Print Assumptions C121_repeat.
Print Assumptions C122_block_layers_partial.
Print Assumptions C122_pattern_layers_partial.
Print Assumptions C122_no_substrate_refuted.
Print Assumptions C123_dims_iff.
Print Assumptions C124_success_partial.
Print Assumptions C125_shape_partial.
Print Assumptions C126_other_partial.
