(** C172: sources, mode profiles and measurements use the axis the port faces. *)
From Coq Require Import Reals Lra Lia Arith ZArith Bool.
From Verif Require Import Cx Model_yee Model_grid Model_mode Model_portaxes Spec_portaxes Proof_portaxes.
Local Open Scope R_scope.

Theorem C172_axes_partial : forall ndim f a w h ax, ndim = 2%nat \/ ndim = 3%nat /\ h <> 0 -> f <> 0 -> w <> 0 -> faces a ax ->
  exists s, port_region f a w h = Some s /\ prop_axis s = Some ax /\ view_axis ndim s = Some ax.
Proof. exact axes_ok. Qed.
Print Assumptions C172_axes_partial.
(** 3-d, a port without height (the default): the fields are viewed along z, the mode is placed along another axis, and so a mode found at
    the port is not seen as itself. *)
Theorem C172_flat_refuted : forall f a w ax, faces a ax -> exists s pa, port_region f a w 0 = Some s /\ prop_axis s = Some pa /\ pa <> AZ /\ view_axis 3 s = Some AZ /\
  forall m, m AX <> m AZ -> m AY <> m AZ -> exists c, view_c AZ (profile_c pa m) c <> m c.
Proof.
  intros f a w ax Ha. destruct (axes_flat f a w ax Ha) as (s & A1 & A2 & A3 & A4). exists s. destruct (prop_axis s) as [pa |] eqn:E; [| congruence].
  exists pa. assert (pa <> AZ) by congruence. repeat (split; [assumption || reflexivity |]). intros m M1 M2. apply flat_view; auto.
Qed.
Print Assumptions C172_flat_refuted.
(** A port without width (the default) that faces y launches along x. *)
Theorem C172_no_width_refuted : forall ndim f a h, (2 <= ndim)%nat -> faces a AY -> exists s, port_region f a 0 h = Some s /\ prop_axis s = Some AX.
Proof. exact no_width. Qed.
Print Assumptions C172_no_width_refuted.
(** Rejected: angles that are no multiple of 90 degrees; regions extended along all three axes. *)
Theorem C172_rejected : (forall f a w h, (forall z, a <> 90 * IZR z) -> port_region f a w h = None) /\
  (forall ndim x y z, x <> 0 -> y <> 0 -> z <> 0 -> view_axis ndim (x, y, z) = None /\ prop_axis (x, y, z) = None).
Proof. split; [exact other_angle |]. intros ndim x y z X Y Z. apply full_size. intros []; assumption. Qed.
Print Assumptions C172_rejected.
(** A region flat along exactly one axis: modes, profiles and views all use that axis (in 2-d, views take x for a region flat along z). *)
Theorem C172_one_flat : forall x y z, x <> 0 -> y <> 0 -> z <> 0 ->
  (prop_axis (0, y, z) = Some AX /\ view_axis 3 (0, y, z) = Some AX) /\ (prop_axis (x, 0, z) = Some AY /\ view_axis 3 (x, 0, z) = Some AY) /\
  (prop_axis (x, y, 0) = Some AZ /\ view_axis 3 (x, y, 0) = Some AZ /\ view_axis 2 (x, y, 0) = Some AX).
Proof. exact one_flat. Qed.
Print Assumptions C172_one_flat.
Example C172_nonvacuous : faces 270 AY /\ faces (-180) AX /\ exists s, port_region 3 270 2 1 = Some s /\ prop_axis s = Some AY /\ view_axis 3 s = Some AY.
Proof.
  assert (F : faces 270 AY) by (exists 1%Z; lra). split; [exact F |]. split; [exists (-1)%Z; lra |]. apply axes_ok; auto; try lra; try (right; split; [reflexivity | lra]).
Qed.
