(** C51-C53: design transforms. *)
From Coq Require Import Reals List Arith ZArith Lra Lia Bool.
From Verif Require Import Cx Arr Model_yee Model_grid Spec_grid Proof_grid Spec_transform Proof_transform Proof_transform2.
Import ListNotations.
Local Open Scope R_scope.

(** C51.  ox, oy, dp, dn, avg: the flags.  Without diagonal flags: both ortho symmetries hold when averaging, or when the
    reflected length is odd. *)
Theorem C51_ortho_partial : forall ox oy avg n m x,
  (ox = true -> avg = true \/ Z.odd n = true) -> (oy = true -> avg = true \/ Z.odd m = true) ->
  let y := symmetry_fn ox oy false false avg n m x in (ox = true -> sym_x n m y) /\ (oy = true -> sym_y n m y).
Proof. exact symmetric_ortho. Qed.
Print Assumptions C51_ortho_partial.
(** With diagonal flags on a square array: all requested symmetries hold when ortho_x = ortho_y. *)
Theorem C51_diag_partial : forall o dp dn avg n x, (o = true -> avg = true \/ Z.odd n = true) ->
  let y := symmetry_fn o o dp dn avg n n x in
  (o = true -> sym_x n n y /\ sym_y n n y) /\ (dp = true -> sym_diag n n y) /\ (dn = true -> sym_anti n n y).
Proof. exact symmetric_all. Qed.
Print Assumptions C51_diag_partial.
(** A symmetric input is unchanged, for all flags, modes and shapes. *)
Theorem C51_symmetric_fixed : forall ox oy dp dn avg n m x, ((dp || dn)%bool = true -> n = m) ->
  (ox = true -> sym_x n m x) -> (oy = true -> sym_y n m x) -> (dp = true -> sym_diag n m x) -> (dn = true -> sym_anti n m x) ->
  forall i j, (0 <= i < n)%Z -> (0 <= j < m)%Z -> symmetry_fn ox oy dp dn avg n m x i j = x i j.
Proof. exact symmetric_fixed. Qed.
Print Assumptions C51_symmetric_fixed.
(** Refuted for every even length without averaging: the two middle rows are swapped, not made equal. *)
Theorem C51_even_refuted : forall k m, (0 < k)%Z -> (0 < m)%Z -> exists x, ~ sym_x (2 * k) m (symmetry_fn true false false false false (2 * k) m x).
Proof.
  intros k m Hk Hm. exists (fun i _ => if Z.eqb i k then 1 else 0). intros H.
  destruct (even_swaps k m (fun i _ => if Z.eqb i k then 1 else 0) 0 Hk ltac:(lia)) as [A B].
  specialize (H k 0%Z ltac:(lia) ltac:(lia)). replace (2 * k - 1 - k)%Z with (k - 1)%Z in H by ring. rewrite A, B, Z.eqb_refl in H.
  destruct (Z.eqb_spec (k - 1) k); [lia | lra].
Qed.
Print Assumptions C51_even_refuted.
(** Refuted for ortho_x together with diag_p but not ortho_y, averaging. *)
Theorem C51_mixed_refuted : exists n x, ~ sym_x n n (symmetry_fn true false true false true n n x).
Proof.
  exists 2%Z, corner. intros H. specialize (H 0%Z 0%Z ltac:(lia) ltac:(lia)). destruct mixed_bad as [A B].
  change (2 - 1 - 0)%Z with 1%Z in H. rewrite A, B in H. lra.
Qed.
Print Assumptions C51_mixed_refuted.
Example C51_nonvacuous : Z.odd 5 = true /\ symmetry_fn true true true true false 5 5 corner 4%Z 1%Z = 1 / 2 /\
  sym_x 3 3 (fun i j => IZR ((i - 1) * (i - 1) * (j * j))).
Proof.
  split; [reflexivity |]. split.
  - unfold symmetry_fn, anti_fn, transpose_fn, ortho_x_fn, ortho_y_fn, corner. cbn. lra.
  - intros i j _ _. f_equal. ring.
Qed.

(** C52 *)
Theorem C52_mask_list : forall init bs n m rho i j,
  ((exists b, In b bs /\ b_mask b n m i j = true) -> get_mask_fn init bs n m rho i j = rho i j) /\
  (~ (exists b, In b bs /\ b_mask b n m i j = true) -> get_mask_fn init bs n m rho i j = init i j).
Proof. exact mask_list_exact. Qed.
Print Assumptions C52_mask_list.
Theorem C52_mask_one : forall init b n m rho i j,
  (b_mask b n m i j = true -> get_mask_fn1 init b n m rho i j = rho i j) /\
  (b_mask b n m i j = false -> get_mask_fn1 init b n m rho i j = init i j).
Proof. exact mask_one_exact. Qed.
Print Assumptions C52_mask_one.

(** The same in terms of the boxes' geometry. *)
Theorem C52_design_region : forall init bs n m rho i j, (forall b, In b bs -> within n m b) -> (0 <= i < n)%Z -> (0 <= j < m)%Z ->
  ((exists b, In b bs /\ covers b i j) -> get_mask_fn init bs n m rho i j = rho i j) /\
  (~ (exists b, In b bs /\ covers b i j) -> get_mask_fn init bs n m rho i j = init i j).
Proof. exact mask_region. Qed.
Theorem C52_design_region_one : forall init b n m rho i j, within n m b -> (0 <= i < n)%Z -> (0 <= j < m)%Z ->
  (covers b i j -> get_mask_fn1 init b n m rho i j = rho i j) /\ (~ covers b i j -> get_mask_fn1 init b n m rho i j = init i j).
Proof. exact mask_region_one. Qed.
Example C52_case : within 10 10 (mkBox (2, 3) (1, 1) 1) /\ covers (mkBox (2, 3) (1, 1) 1) 2 3 /\ ~ covers (mkBox (2, 3) (1, 1) 1) 3 3.
Proof. exact region_instance. Qed.
Print Assumptions C52_design_region.

(** C53 *)
Theorem C53_projection_range : forall beta eta x, 0 < beta -> 0 < eta < 1 -> 0 <= x <= 1 -> 0 <= project beta eta x <= 1.
Proof. exact project_range. Qed.
Theorem C53_projection_fixes : forall beta eta, 0 < beta -> 0 < eta < 1 -> project beta eta 0 = 0 /\ project beta eta 1 = 1.
Proof. intros. split; [apply project_0 | apply project_1]; auto. Qed.
Theorem C53_projection_monotone : forall beta eta x y, 0 < beta -> 0 < eta < 1 -> x < y -> project beta eta x < project beta eta y.
Proof. exact project_lt. Qed.
(** The whole transform (disk average, then projection). *)
Theorem C53_smooth_range : forall beta eta r n m x i j, 0 < beta -> 0 < eta < 1 -> in01 n m x -> 0 <= smooth beta eta r n m x i j <= 1.
Proof. exact smooth_range. Qed.
Theorem C53_smooth_monotone : forall beta eta r n m x y i j, 0 < beta -> 0 < eta < 1 ->
  (forall i j, (0 <= i < n)%Z -> (0 <= j < m)%Z -> x i j <= y i j) -> smooth beta eta r n m x i j <= smooth beta eta r n m y i j.
Proof. exact smooth_mono. Qed.
(** Pixels at least r away from the border inside a solid (empty) neighbourhood stay solid (empty). *)
Theorem C53_smooth_solid : forall beta eta r n m x i j, 0 < beta -> 0 < eta < 1 ->
  (Z.of_nat r <= i < n - Z.of_nat r)%Z -> (Z.of_nat r <= j < m - Z.of_nat r)%Z ->
  ((forall i' j', (Z.abs (i' - i) <= Z.of_nat r)%Z -> (Z.abs (j' - j) <= Z.of_nat r)%Z -> x i' j' = 1) -> smooth beta eta r n m x i j = 1) /\
  ((forall i' j', (Z.abs (i' - i) <= Z.of_nat r)%Z -> (Z.abs (j' - j) <= Z.of_nat r)%Z -> x i' j' = 0) -> smooth beta eta r n m x i j = 0).
Proof. exact smooth_solid. Qed.
(** But not at the border: the convolution pads with zeros. *)
Theorem C53_solid_border_eroded : forall beta eta r n m, 0 < beta -> 0 < eta < 1 -> (0 < r)%nat -> smooth beta eta r n m (fun _ _ => 1) 0%Z 0%Z < 1.
Proof. exact smooth_corner. Qed.
Print Assumptions C53_projection_range.
Print Assumptions C53_projection_fixes.
Print Assumptions C53_projection_monotone.
(** The neighbourhood that matters is exactly the disk of radius r (squared distance below (r + 1)^2): pixels outside it have no effect,
    and raising any pixel of it that is in the design raises the result. *)
Theorem C53_smooth_disk : forall beta eta r n m x y i j, 0 < beta -> 0 < eta < 1 ->
  ((forall i' j', ((i' - i) * (i' - i) + (j' - j) * (j' - j) < (Z.of_nat r + 1) * (Z.of_nat r + 1))%Z -> x i' j' = y i' j') ->
   smooth beta eta r n m x i j = smooth beta eta r n m y i j) /\
  forall i' j', (0 <= i' < n)%Z -> (0 <= j' < m)%Z -> ((i' - i) * (i' - i) + (j' - j) * (j' - j) < (Z.of_nat r + 1) * (Z.of_nat r + 1))%Z ->
   (forall u v, (0 <= u < n)%Z -> (0 <= v < m)%Z -> x u v <= y u v) -> x i' j' < y i' j' -> smooth beta eta r n m x i j < smooth beta eta r n m y i j.
Proof. exact smooth_disk. Qed.
Print Assumptions C53_smooth_disk.
Print Assumptions C53_smooth_range.
Print Assumptions C53_smooth_monotone.
Print Assumptions C53_smooth_solid.
Print Assumptions C53_solid_border_eroded.
Example C53_nonvacuous : 0 < 10 /\ 0 < 1/2 < 1 /\ in01 8 8 (fun i j => if Z.even (i + j) then 1 else 1/4).
Proof. split; [lra |]. split; [lra |]. intros i j _ _. destruct (Z.even (i + j)); lra. Qed.
