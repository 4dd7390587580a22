(** Proofs about Model_portaxes. *)
From Coq Require Import Reals Lra Lia Arith ZArith Bool.
From Verif Require Import Cx Model_yee Model_grid Proof_grid Model_mode Model_portaxes Spec_portaxes.
Local Open Scope R_scope.

Lemma is_zero_0 : is_zero 0 = true.
Proof. unfold is_zero. destruct (Req_EM_T 0 0); congruence. Qed.
Lemma is_zero_nz : forall x, x <> 0 -> is_zero x = false.
Proof. intros. unfold is_zero. destruct (Req_EM_T x 0); congruence. Qed.
Lemma region_of : forall f a w h ax, faces a ax -> port_region f a w h = Some (match ax with AX => (0, w * f, h * f) | _ => (w * f, 0, h * f) end).
Proof.
  intros f a w h [] H; cbn in H; [| | contradiction]; destruct H as (z & ->); unfold port_region; [rewrite port_even | rewrite port_odd]; rewrite Rmult_0_l; reflexivity.
Qed.
Lemma axes_ok : forall ndim f a w h ax, ndim = 2%nat \/ ndim = 3%nat /\ h <> 0 -> f <> 0 -> w <> 0 -> faces a ax ->
  exists s, port_region f a w h = Some s /\ prop_axis s = Some ax /\ view_axis ndim s = Some ax.
Proof.
  intros ndim f a w h ax Hn Hf Hw Ha. rewrite (region_of f a w h ax Ha). eexists. split; [reflexivity |].
  assert (W : w * f <> 0) by (apply Rmult_integral_contrapositive; auto).
  unfold prop_axis, view_axis. destruct ax; [| | contradiction]; cbn [size_along]; rewrite is_zero_0, (is_zero_nz _ W); cbn [orb andb].
  - split; [reflexivity |]. destruct Hn as [-> | [-> Hh]]; cbn -[is_zero]; rewrite ?andb_false_r; [reflexivity |].
    rewrite (is_zero_nz (h * f)); [reflexivity |]. apply Rmult_integral_contrapositive; auto.
  - split; [reflexivity |]. destruct Hn as [-> | [-> Hh]]; cbn -[is_zero]; rewrite ?andb_false_r; [reflexivity |].
    rewrite (is_zero_nz (h * f)); [reflexivity |]. apply Rmult_integral_contrapositive; auto.
Qed.
Lemma axes_flat : forall f a w ax, faces a ax -> exists s, port_region f a w 0 = Some s /\ prop_axis s <> None /\ prop_axis s <> Some AZ /\ view_axis 3 s = Some AZ.
Proof.
  intros f a w ax Ha. rewrite (region_of f a w 0 ax Ha), Rmult_0_l. eexists. split; [reflexivity |].
  unfold prop_axis, view_axis. destruct ax; [| | contradiction]; cbn [size_along]; rewrite is_zero_0; cbn; rewrite ?orb_true_r; cbn;
    (split; [| split; [| reflexivity]]); destruct (is_zero (w * f)); discriminate.
Qed.
Lemma flat_view : forall pa f, pa <> AZ -> f AX <> f AZ -> f AY <> f AZ -> exists c, view_c AZ (profile_c pa f) c <> f c.
Proof.
  intros pa f Hp H1 H2. destruct pa; [exists AX | exists AY | contradiction]; unfold view_c, profile_c, view_axes, prof_axes, prof_sign; intro E.
  - apply H1. rewrite <- E. apply C_eq; cbn; ring.
  - apply H2. rewrite <- E. apply C_eq; cbn; ring.
Qed.
Lemma no_width : forall ndim f a h, (2 <= ndim)%nat -> faces a AY -> exists s, port_region f a 0 h = Some s /\ prop_axis s = Some AX.
Proof.
  intros ndim f a h Hn Ha. rewrite (region_of f a 0 h AY Ha), Rmult_0_l. eexists. split; [reflexivity |]. unfold prop_axis. cbn [size_along]. rewrite is_zero_0. reflexivity.
Qed.
Lemma other_angle : forall f a w h, (forall z, a <> 90 * IZR z) -> port_region f a w h = None.
Proof. intros. unfold port_region. rewrite port_other by auto. reflexivity. Qed.
Lemma full_size : forall ndim s, (forall a, size_along s a <> 0) -> view_axis ndim s = None /\ prop_axis s = None.
Proof. intros ndim s H. unfold view_axis, prop_axis. rewrite !is_zero_nz by auto. split; reflexivity. Qed.
Lemma one_flat : forall x y z, x <> 0 -> y <> 0 -> z <> 0 ->
  (prop_axis (0, y, z) = Some AX /\ view_axis 3 (0, y, z) = Some AX) /\ (prop_axis (x, 0, z) = Some AY /\ view_axis 3 (x, 0, z) = Some AY) /\
  (prop_axis (x, y, 0) = Some AZ /\ view_axis 3 (x, y, 0) = Some AZ /\ view_axis 2 (x, y, 0) = Some AX).
Proof.
  intros x y z X Y Z. unfold prop_axis, view_axis. cbn [size_along]. rewrite !is_zero_0, (is_zero_nz x X), (is_zero_nz y Y), (is_zero_nz z Z).
  repeat split.
Qed.
