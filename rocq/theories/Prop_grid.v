(** C41-C45, C62, C63: grid, ports and boxes. *)
From Coq Require Import Reals List Arith ZArith Lra Lia Bool.
From Verif Require Import Cx Arr Model_yee Model_grid Spec_grid Proof_grid.
Local Open Scope R_scope.

(** C41.  [box_fits]: the requested index box lies inside the grid. *)
Theorem C41_mask_exact : forall g center size i j k, box_fits g center size -> cell g i j k ->
  exists b, mask g center size i j k = Some b /\ (b = true <-> in_box g center size i j k).
Proof. exact mask_exact. Qed.
Print Assumptions C41_mask_exact.
Theorem C41_set_eps_exact : forall g center size eps e i j k, box_fits g center size -> cell g i j k ->
  (in_box g center size i j k -> set_eps g center size eps e i j k = Some eps) /\
  (~ in_box g center size i j k -> set_eps g center size eps e i j k = Some (e i j k)).
Proof. exact set_eps_exact. Qed.
Print Assumptions C41_set_eps_exact.
Theorem C41_mask_fn_exact : forall g center size init rho i j k, box_fits g center size -> cell g i j k ->
  (in_box g center size i j k -> mask_fn g center size init rho i j k = Some (rho i j k)) /\
  (~ in_box g center size i j k -> mask_fn g center size init rho i j k = Some (init i j k)).
Proof. exact mask_fn_exact. Qed.
Print Assumptions C41_mask_fn_exact.
(** The rounding in that box: to the nearest cell, halves to the even one. *)
Theorem C41_rounding : forall x z, around x = z <-> nearest_even x z.
Proof. exact around_nearest_even. Qed.
Print Assumptions C41_rounding.
(** The grid itself: size / spacing rounded to the nearest cell count (so within half a cell of the requested size, and exact for whole cells)
    along each of its axes, one cell along the others. *)
Theorem C41_shape : forall ndim size spacing a, 0 < spacing a ->
  let n := grid_shape ndim size spacing a in
  ((match a with AX => 0 | AY => 1 | AZ => 2 end < ndim)%nat -> nearest_even (size a / spacing a) n /\ Rabs (IZR n * spacing a - size a) <= spacing a / 2 /\ (forall k, size a = IZR k * spacing a -> n = k)) /\
  ((ndim <= match a with AX => 0 | AY => 1 | AZ => 2 end)%nat -> n = 1%Z).
Proof. exact shape_exact. Qed.
Print Assumptions C41_shape.
(** The index box approximates the physical box: low edge within 5/4 cell, width within half a cell. *)
Theorem C41_box_accuracy : forall g center size a, (axis_nat a < g_ndim g)%nat -> 0 < g_spacing g a -> 0 <= size a ->
  let d := g_spacing g a in
  Rabs (IZR (box_lo g center size a) * d - (center a - size a / 2)) <= 5 / 4 * d /\
  Rabs (IZR (Z.max 0 (around (size a / d))) * d - size a) <= d / 2.
Proof. exact box_accuracy. Qed.
Print Assumptions C41_box_accuracy.
(** fill(height): exactly the cells whose upper face is at most height along the last axis. *)
Theorem C41_fill_exact : forall n spacing height eps e l, 0 < spacing -> 0 < height -> height <= IZR n * spacing -> (0 <= l < n)%Z ->
  ((IZR l + 1) * spacing <= height -> fill_last n spacing height eps e l = eps) /\
  (height < (IZR l + 1) * spacing -> fill_last n spacing height eps e l = e l).
Proof. exact fill_exact. Qed.
Print Assumptions C41_fill_exact.
(** Outside the "inside the grid" hypothesis: a box hanging over the low edge by less than its width writes nothing at all
    (its start wraps to the far end). *)
Theorem C41_low_edge_dropped : forall g center size eps e i j k, (0 < g_ndim g)%nat ->
  let c := around (center AX / g_spacing g AX) in let s := around (size AX / g_spacing g AX) in
  (0 < s)%Z -> (c - s / 2 < 0)%Z -> (0 <= c - s / 2 + s)%Z -> (s <= g_shape g AX)%Z -> cell g i j k ->
  set_eps g center size eps e i j k = Some (e i j k) \/ set_eps g center size eps e i j k = None.
Proof. exact low_edge_noop. Qed.
Print Assumptions C41_low_edge_dropped.
Example C41_nonvacuous : box_fits g108 at54 sz42 /\ in_box g108 at54 sz42 3 3 0 /\ ~ in_box g108 at54 sz42 2 3 0.
Proof. exact g108_fits. Qed.

(** C42: when the two margins leave room ... *)
Theorem C42_safe_partial : forall t sep size spacing x, let p := match t with None => 0 | Some t => IZR (t + sep) * spacing end in p <= size - spacing - p ->
  p <= safe1 t sep size spacing x <= size - spacing - p /\
  (p <= x <= size - spacing - p -> safe1 t sep size spacing x = x).
Proof. exact safe1_spec. Qed.
Print Assumptions C42_safe_partial.
Theorem C42_idempotent : forall t sep size spacing x, safe1 t sep size spacing (safe1 t sep size spacing x) = safe1 t sep size spacing x.
Proof. exact safe1_idem. Qed.
Print Assumptions C42_idempotent.
(** ... but the constructor only asks for 2 t <= cells: 10 cells, PML 4, separation 5 sends the centre into the PML. *)
Theorem C42_crowded_refuted : exists t sep size spacing x, IZR (2 * t) * spacing <= size /\ IZR t * spacing <= x <= size - IZR t * spacing /\
  safe1 (Some t) sep size spacing x < IZR t * spacing.
Proof. exists 4%Z, 5%Z, 10, 1, 5. destruct safe1_crowded as [E _]. rewrite E. cbn; lra. Qed.
Print Assumptions C42_crowded_refuted.
Example C42_nonvacuous : pml_len (Some 10%Z) 5 (1/2) <= 50 - 1/2 - pml_len (Some 10%Z) 5 (1/2) /\ safe1 (Some 10%Z) 5 50 (1/2) 1 = 15 / 2.
Proof.
  unfold safe1, pml_len. replace (IZR (10 + 5)) with 15 by (cbn; lra). split; [lra |]. unfold Rmin, Rmax. repeat destruct (Rle_dec _ _); lra.
Qed.

(** C43: a pattern inside the grid is never rejected; but the test is `not b0 >= 0 and ...`, so what is rejected is exactly
    the patterns sticking out on the low-x side only. *)
Theorem C43_inside_accepted_partial : forall b0 b1 b2 b3 sx sy, 0 <= b0 -> 0 <= b1 -> b2 <= sx -> b3 <= sy -> add_raises b0 b1 b2 b3 sx sy = false.
Proof.
  intros. destruct (add_raises b0 b1 b2 b3 sx sy) eqn:E; auto. apply add_raises_iff in E. lra.
Qed.
Print Assumptions C43_inside_accepted_partial.
Theorem C43_rejected_exactly : forall b0 b1 b2 b3 sx sy, add_raises b0 b1 b2 b3 sx sy = true <-> b0 < 0 /\ 0 <= b1 /\ b2 <= sx /\ b3 <= sy.
Proof. exact add_raises_iff. Qed.
Print Assumptions C43_rejected_exactly.
Theorem C43_outside_accepted_refuted : forall b0 b1 b2 b3 sx sy, b1 < 0 \/ sx < b2 \/ sy < b3 -> add_raises b0 b1 b2 b3 sx sy = false.
Proof. intros. destruct (add_raises b0 b1 b2 b3 sx sy) eqn:E; auto. apply add_raises_iff in E. lra. Qed.
Print Assumptions C43_outside_accepted_refuted.

(** C44 *)
Theorem C44_port_horizontal : forall z w h, port_size (180 * IZR z) w h = Some (0, w, h).
Proof. exact port_even. Qed.
Theorem C44_port_vertical : forall z w h, port_size (180 * IZR z + 90) w h = Some (w, 0, h).
Proof. exact port_odd. Qed.
Theorem C44_port_other_raises : forall a w h, (forall z, a <> 90 * IZR z) -> port_size a w h = None.
Proof. exact port_other. Qed.
Theorem C44_port_half_turn : forall a w h, port_size (a + 180) w h = port_size a w h.
Proof. exact port_rot. Qed.
Print Assumptions C44_port_horizontal.
Print Assumptions C44_port_vertical.
Print Assumptions C44_port_other_raises.
Print Assumptions C44_port_half_turn.
Example C44_nonvacuous : port_size (-90) 2 3 = Some (2, 0, 3).
Proof. replace (-90) with (180 * IZR (-1) + 90) by (cbn; lra). apply C44_port_vertical. Qed.
Example C44_nonvacuous_other : forall z, 45 <> 90 * IZR z.
Proof. intros z E. assert (Q : IZR 1 = IZR (2 * z)) by (rewrite mult_IZR; lra). apply eq_IZR in Q. lia. Qed.

(** C45 *)
Theorem C45_align : forall c b, b_center (align c b) = b_center c /\ b_size (align c b) = b_size b.
Proof. exact align_center. Qed.
Theorem C45_align_to_point : forall p b, b_center (align_to p b) = p /\ b_size (align_to p b) = b_size b.
Proof. exact align_to_center. Qed.
Theorem C45_halign : forall c left opposite b, let b' := halign c left opposite b in
  (if left then fst (b_min b') else fst (b_max b')) =
    (if left then (if opposite then fst (b_max c) else fst (b_min c)) else (if opposite then fst (b_min c) else fst (b_max c))) /\
  b_size b' = b_size b /\ snd (b_min b') = snd (b_min b).
Proof. exact halign_edges. Qed.
Theorem C45_valign : forall c bottom opposite b, let b' := valign c bottom opposite b in
  (if bottom then snd (b_min b') else snd (b_max b')) =
    (if bottom then (if opposite then snd (b_max c) else snd (b_min c)) else (if opposite then snd (b_min c) else snd (b_max c))) /\
  b_size b' = b_size b /\ fst (b_min b') = fst (b_min b).
Proof. exact valign_edges. Qed.
Theorem C45_translate_additive : forall dx dy dx' dy' b, translate dx' dy' (translate dx dy b) = translate (dx + dx') (dy + dy') b.
Proof. exact translate_add. Qed.
(** A pixel is in the mask iff its upper face lies in (min, max] along both axes. *)
Theorem C45_mask_exact : forall b n m i j, 0 < b_spacing b -> 0 <= fst (b_min b) -> 0 <= snd (b_min b) -> 0 <= fst (b_size b) -> 0 <= snd (b_size b) ->
  fst (b_max b) <= IZR n * b_spacing b -> snd (b_max b) <= IZR m * b_spacing b -> (0 <= i < n)%Z -> (0 <= j < m)%Z ->
  (b_mask b n m i j = true <-> edge_in (fst (b_min b)) (fst (b_max b)) (b_spacing b) i /\ edge_in (snd (b_min b)) (snd (b_max b)) (b_spacing b) j).
Proof. exact b_mask_exact. Qed.
Print Assumptions C45_align.
Print Assumptions C45_align_to_point.
Print Assumptions C45_halign.
Print Assumptions C45_valign.
Print Assumptions C45_translate_additive.
Print Assumptions C45_mask_exact.
Example C45_nonvacuous : edge_in 1 3 (1/2) 2 /\ ~ edge_in 1 3 (1/2) 6.
Proof. unfold edge_in. split; cbn; lra. Qed.

(** C62: eps_t before any read reflects all edits ... *)
Theorem C62_fresh_partial : forall s fs e, eread s (fold_left (estep s) (map EWrite fs) (mkE e None)) = yee_avg s (fold_left (fun x f => f x) fs e).
Proof. exact eps_t_fresh. Qed.
Print Assumptions C62_fresh_partial.
(** ... and after one read it never changes, whatever is done to the grid. *)
Theorem C62_frozen_refuted : forall s ops st, eread s (fold_left (estep s) ops (estep s st ERead)) = eread s st.
Proof. exact eps_t_frozen. Qed.
Print Assumptions C62_frozen_refuted.

(** C63: add on a 3-d grid with equal spacings. *)
Theorem C63_slab_partial : forall g zmin thickness eps e k, let d := g_spacing g AZ in g_spacing g AX = d -> g_spacing g AY = d -> 0 < d ->
  0 <= zmin -> 0 <= thickness -> zmin + thickness <= IZR (g_shape g AZ) * d -> (0 <= k < g_shape g AZ)%Z ->
  (edge_in zmin (zmin + thickness) d k -> add_z g zmin thickness eps e k = eps) /\
  (~ edge_in zmin (zmin + thickness) d k -> add_z g zmin thickness eps e k = e k).
Proof. exact add_z_exact. Qed.
Print Assumptions C63_slab_partial.
(** Other spacings: x and y spacings are used along z. *)
Theorem C63_slab_refuted : exists g zmin thickness eps e k, (forall a, 0 < g_spacing g a) /\ 0 <= zmin /\ 0 < thickness /\
  zmin + thickness <= IZR (g_shape g AZ) * g_spacing g AZ /\ (0 <= k < g_shape g AZ)%Z /\
  edge_in zmin (zmin + thickness) (g_spacing g AZ) k /\ add_z g zmin thickness eps e k <> eps.
Proof.
  exists aniso, 2, 2, 12, (fun _ => 1), 7%Z. destruct add_z_aniso as [A B]. rewrite B.
  split; [intros []; cbn; lra |]. split; [lra |]. split; [lra |]. split; [cbn; lra |]. split; [cbn; lia |]. split; [unfold edge_in in *; lra | lra].
Qed.
Print Assumptions C63_slab_refuted.
