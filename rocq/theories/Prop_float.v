(** C155: cell counts and indices in binary64 arithmetic. *)
From Coq Require Import Reals ZArith Lra Lia.
From Verif Require Import Model_float Spec_float Proof_float.
Local Open Scope R_scope.

(** The arithmetic: every operation returns a binary64 number nearest to the exact result. *)
Theorem C155_nearest_partial : forall x, is_b64 (b64 x) /\ forall y, is_b64 y -> Rabs (b64 x - x) <= Rabs (y - x).
Proof. exact b64_nearest. Qed.
Print Assumptions C155_nearest_partial.
(** A size of k cells and the spacing, both written as decimals (hence both rounded before the division is), give a grid of k cells; *)
Theorem C155_grid_partial : forall D k, normal D -> (0 <= k <= 2 ^ 49)%Z -> grid_cells (b64 (IZR k * D)) (b64 D) = k.
Proof. exact decimal_cells. Qed.
Print Assumptions C155_grid_partial.
(** so does every size less than a quarter of a cell off. *)
Theorem C155_grid_near_partial : forall size spacing k, 0 < spacing -> (Z.abs k <= 2 ^ 50)%Z -> Rabs (size - IZR k * spacing) <= spacing / 4 ->
  grid_cells size spacing = k.
Proof. exact around_quotient. Qed.
Print Assumptions C155_grid_near_partial.
(** slice, mask and set_eps select the n cells around cell c. *)
Theorem C155_slice_partial : forall D c n, normal D -> (0 <= c <= 2 ^ 49)%Z -> (0 < n <= 2 ^ 49)%Z ->
  slice_range (b64 (IZR c * D)) (b64 (IZR n * D)) (b64 D) = ((c - n / 2)%Z, (c - n / 2 + n)%Z).
Proof. exact decimal_slice. Qed.
Print Assumptions C155_slice_partial.
(** fill truncates instead: it may be one cell short, never more; *)
Theorem C155_fill_partial : forall D k, normal D -> (0 < k <= 2 ^ 49)%Z ->
  (fill_count (b64 (IZR k * D)) (b64 D) = k \/ fill_count (b64 (IZR k * D)) (b64 D) = (k - 1)%Z).
Proof. exact decimal_trunc. Qed.
Print Assumptions C155_fill_partial.
(** it is exact if the height is exactly a multiple of the spacing in binary64; *)
Theorem C155_fill_exact_partial : forall d k, is_b64 d -> 0 < d -> (0 <= k < 2 ^ 53)%Z -> fill_count (IZR k * d) d = k.
Proof. exact exact_trunc. Qed.
Print Assumptions C155_fill_exact_partial.
(** but fill(0.3) of a grid with spacing 0.1 fills two cells, *)
Theorem C155_fill_refuted : fill_count (b64 (3 / 10)) (b64 (1 / 10)) = 2%Z.
Proof. exact fill_short. Qed.
Print Assumptions C155_fill_refuted.
(** adding a component from 0.3 with thickness 0.3 paints the cells 2, 3, 4, and so does a Box from 0.3 to 0.6. *)
Theorem C155_shift_refuted : add_range (b64 (3 / 10)) (b64 (3 / 10)) (b64 (1 / 10)) (b64 (1 / 10)) = (2%Z, 5%Z) /\
  box_range (b64 (3 / 10)) (b64 (3 / 10)) (b64 (1 / 10)) = (2%Z, 5%Z).
Proof. split; exact box_shift. Qed.
Print Assumptions C155_shift_refuted.
(** A PML of 0.6 gets five cells of 0.1. *)
Theorem C155_pml_refuted : pml_cells (b64 (6 / 10)) (b64 (1 / 10)) = 5%Z.
Proof. exact pml_short. Qed.
Print Assumptions C155_pml_refuted.
Theorem C155_pml_partial : forall D k, normal D -> (0 < k <= 2 ^ 49)%Z -> (pml_cells (b64 (IZR k * D)) (b64 D) = k \/ pml_cells (b64 (IZR k * D)) (b64 D) = (k - 1)%Z).
Proof. exact decimal_trunc. Qed.
Print Assumptions C155_pml_partial.
Example C155_nonvacuous : normal (1 / 10) /\ (0 <= 3 <= 2 ^ 49)%Z /\ b64 (1 / 10) <> 1 / 10 /\ is_b64 (b64 (1 / 10)).
Proof.
  split; [| split; [lia | split; [rewrite b64_tenth; unfold tenth; lra | apply b64_nearest]]].
  unfold normal. apply Rle_trans with (powerRZ 2 (-4)); [| rewrite <- bp; cbn; lra]. rewrite <- !bp. apply Raux.bpow_le. lia.
Qed.
