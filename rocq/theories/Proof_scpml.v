(** scpml and from_simgrid. *)
From Coq Require Import Reals List Arith ZArith Lra Lia Bool.
From Verif Require Import Cx Arr Model_coupling Model_yee Spec_yee Model_fdfd Spec_fdfd.
Local Open Scope R_scope.

(** The normalised depth inside the layer. *)
Lemma d_pml_left : forall (for_h : bool) h n t i, 0 < h -> (0 < t)%nat -> (2 * t < n)%nat -> (i < t)%nat ->
  d_pml h n t (pml_pos for_h h) i = INR (t - i) / (INR t + (if for_h then 0 else 1 / 2)).
Proof.
  intros for_h h n t i Hh Ht Hn Hi. unfold d_pml. destruct (Nat.ltb_spec i t); [| lia].
  pose proof (lt_0_INR t Ht). rewrite minus_INR by lia. unfold pml_pos, pos_h, pos_e, p_pos.
  destruct for_h; rewrite ?plus_INR; cbn [INR]; field; repeat split; try lra; try (apply Rgt_not_eq; nra).
Qed.
Lemma d_pml_mid : forall (for_h : bool) h n t i, (t <= i)%nat -> (i < n - t)%nat -> d_pml h n t (pml_pos for_h h) i = 0.
Proof.
  intros. unfold d_pml. destruct (Nat.ltb_spec i t); [lia |]. destruct (Nat.ltb_spec i (n - t)); [reflexivity | lia].
Qed.
Lemma d_pml_right : forall (for_h : bool) h n t i, 0 < h -> (0 < t)%nat -> (2 * t < n)%nat -> (n - t <= i)%nat -> (i < n)%nat ->
  d_pml h n t (pml_pos for_h h) i = INR (i - (n - t)) / (INR t - (if for_h then 0 else 1 / 2)).
Proof.
  intros for_h h n t i Hh Ht Hn Hi Hin. unfold d_pml. destruct (Nat.ltb_spec i t); [lia |]. destruct (Nat.ltb_spec i (n - t)); [lia |].
  assert (Hn' : INR n = INR (n - t) + INR t) by (rewrite <- plus_INR; f_equal; lia).
  assert (1 <= INR t) by (change 1 with (INR 1); apply le_INR; lia). rewrite (minus_INR i (n - t)) by lia.
  unfold pml_pos, pos_h, pos_e, p_pos. rewrite Hn'.
  destruct for_h; rewrite ?plus_INR; cbn [INR]; field; repeat split; try lra; try (apply Rgt_not_eq; nra).
Qed.
Lemma frac01 : forall a b, 0 <= a -> a <= b -> 0 < b -> 0 <= a / b <= 1.
Proof.
  intros a b Ha Hab Hb. split; [apply Rmult_le_pos; [lra | left; apply Rinv_0_lt_compat; lra] |].
  apply (Rmult_le_reg_r b); auto. unfold Rdiv. rewrite Rmult_assoc, Rinv_l; lra.
Qed.
Lemma d_pml_range : forall (for_h : bool) h n t i, 0 < h -> (0 < t)%nat -> (2 * t < n)%nat -> (i < n)%nat ->
  0 <= d_pml h n t (pml_pos for_h h) i <= 1.
Proof.
  intros for_h h n t i Hh Ht Hn Hi. assert (1 <= INR t) by (change 1 with (INR 1); apply le_INR; lia).
  destruct (le_lt_dec t i) as [H1 | H1]; [destruct (le_lt_dec (n - t) i) as [H2 | H2] |].
  - rewrite d_pml_right by auto. pose proof (pos_INR (i - (n - t))).
    assert (INR (i - (n - t)) <= INR t - 1) by (replace 1 with (INR 1) by reflexivity; rewrite <- minus_INR by lia; apply le_INR; lia).
    destruct for_h; apply frac01; lra.
  - rewrite d_pml_mid by auto. lra.
  - rewrite d_pml_left by auto. pose proof (pos_INR (t - i)). assert (INR (t - i) <= INR t) by (apply le_INR; lia).
    destruct for_h; apply frac01; lra.
Qed.
Lemma d_pml_zero : forall (for_h : bool) h n t i, 0 < h -> (0 < t)%nat -> (2 * t < n)%nat -> (i < n)%nat ->
  (d_pml h n t (pml_pos for_h h) i = 0 <-> (t <= i <= n - t)%nat).
Proof.
  intros for_h h n t i Hh Ht Hn Hi. assert (1 <= INR t) by (change 1 with (INR 1); apply le_INR; lia).
  assert (Hdiv : forall a b, b <> 0 -> a / b = 0 -> a = 0).
  { intros a b Hb E. unfold Rdiv in E. apply Rmult_integral in E. destruct E as [E | E]; auto. exfalso. revert E. apply Rinv_neq_0_compat. auto. }
  destruct (le_lt_dec t i) as [H1 | H1]; [destruct (le_lt_dec (n - t) i) as [H2 | H2] |].
  - rewrite d_pml_right by auto. split.
    + intros E. apply Hdiv in E; [| destruct for_h; lra]. apply (INR_eq _ 0) in E. lia.
    + intros E. replace (i - (n - t))%nat with 0%nat by lia. cbn [INR]. unfold Rdiv. ring.
  - rewrite d_pml_mid by auto. split; auto. lia.
  - rewrite d_pml_left by auto. split; [| lia]. intros E. apply Hdiv in E; [| destruct for_h; lra]. apply (INR_eq _ 0) in E. lia.
Qed.
Lemma scpml_parts : forall m lr k0 pe h n t for_h i, (2 * t < n)%nat -> (0 < t)%nat ->
  re (scpml m lr k0 pe h n t for_h i) = 1 /\
  im (scpml m lr k0 pe h n t for_h i) = (INR m + 1) * (d_pml h n t (pml_pos for_h h) i) ^ m * lr / (2 * (k0 * pe)).
Proof.
  intros. unfold scpml. destruct (Nat.eqb_spec n 1); [lia |]. fold (pml_pos for_h h). destruct for_h; unfold pml_pos; split; cbn; ring.
Qed.
Lemma scpml_shape : forall m lr k0 pe h n t for_h i, (0 < m)%nat -> lr < 0 -> 0 < k0 -> 0 < pe -> 0 < h -> (0 < t)%nat -> (2 * t < n)%nat -> (i < n)%nat ->
  let z := scpml m lr k0 pe h n t for_h i in
  re z = 1 /\ - ((INR m + 1) * - lr / (2 * (k0 * pe))) <= im z <= 0 /\ (z = C1 <-> (t <= i <= n - t)%nat).
Proof.
  intros m lr k0 pe h n t for_h i Hm Hlr Hk Hp Hh Ht Hn Hi z. destruct (scpml_parts m lr k0 pe h n t for_h i Hn Ht) as [Er Ei]. fold z in Er, Ei.
  pose proof (d_pml_range for_h h n t i Hh Ht Hn Hi) as [R0 R1]. pose proof (d_pml_zero for_h h n t i Hh Ht Hn Hi) as RZ.
  set (x := d_pml h n t (pml_pos for_h h) i) in *.
  assert (Hx : 0 <= x ^ m <= 1) by (split; [apply pow_le; auto | rewrite <- (pow1 m); apply pow_incr; auto]).
  pose proof (pos_INR m). assert (Hkp : 0 < 2 * (k0 * pe)) by nra. pose proof (Rinv_0_lt_compat _ Hkp) as Hinv.
  assert (Hc : 0 < (INR m + 1) * - lr * / (2 * (k0 * pe))) by (apply Rmult_lt_0_compat; [apply Rmult_lt_0_compat |]; lra).
  assert (Ei' : im z = - ((INR m + 1) * - lr * / (2 * (k0 * pe))) * x ^ m) by (rewrite Ei; unfold Rdiv; ring).
  set (c := (INR m + 1) * - lr * / (2 * (k0 * pe))) in *. unfold Rdiv. fold c.
  split; [exact Er |]. split; [split; rewrite Ei'; nra |]. split.
  - intros E. apply RZ. apply (f_equal im) in E. rewrite Ei' in E. cbn in E.
    destruct (Req_dec x 0) as [| Hx0]; auto. exfalso. assert (0 < x ^ m) by (apply pow_lt; lra). nra.
  - intros E. apply RZ in E. destruct z as [zr zi]. cbn in *. apply C_eq; cbn; auto. rewrite Ei', E, pow_i by lia. ring.
Qed.
(** Grading: the absorption grows towards the outer boundary on either side. *)
Lemma d_pml_monotone : forall (for_h : bool) h n t i, 0 < h -> (0 < t)%nat -> (2 * t < n)%nat ->
  ((i + 1 < n - t)%nat -> d_pml h n t (pml_pos for_h h) (i + 1) <= d_pml h n t (pml_pos for_h h) i) /\
  ((t <= i)%nat -> (i + 1 < n)%nat -> d_pml h n t (pml_pos for_h h) i <= d_pml h n t (pml_pos for_h h) (i + 1)).
Proof.
  intros for_h h n t i Hh Ht Hn. assert (1 <= INR t) by (change 1 with (INR 1); apply le_INR; lia).
  split.
  - intros Hi. destruct (le_lt_dec t (i + 1)).
    + rewrite d_pml_mid by lia. apply d_pml_range; auto; lia.
    + rewrite !d_pml_left by (auto; lia). apply Rmult_le_compat_r; [left; apply Rinv_0_lt_compat; destruct for_h; lra | apply le_INR; lia].
  - intros H1 H2. destruct (le_lt_dec (n - t) i).
    + rewrite !d_pml_right by (auto; lia). apply Rmult_le_compat_r; [left; apply Rinv_0_lt_compat; destruct for_h; lra | apply le_INR; lia].
    + rewrite d_pml_mid by lia. apply d_pml_range; auto; lia.
Qed.
(** The differences of the stretched grid away from the layers. *)
Lemma interior_diff : forall s h sc of_h f a i j k, sc a (coord a i j k) = C1 ->
  diff_fn s (stretched h sc) of_h f a i j k = diff_fn s (uniform_dx (fun _ => h)) of_h f a i j k.
Proof.
  intros. unfold diff_fn, stretched, uniform_dx. rewrite H. replace (RtoC h * C1)%C with (RtoC h) by ring. reflexivity.
Qed.

(** ** from_simgrid *)
Lemma trunc_bounds : forall x, 0 <= x -> IZR (trunc x) <= x < IZR (trunc x) + 1.
Proof.
  intros x H. unfold trunc. destruct (Rle_dec 0 x); [| contradiction]. destruct (base_Int_part x). lra.
Qed.
Lemma trunc_unique : forall x z, 0 <= x -> IZR z <= x < IZR z + 1 -> trunc x = z.
Proof.
  intros x z H Hz. pose proof (trunc_bounds x H) as B.
  assert (IZR (trunc x) < IZR (z + 1)) by (rewrite plus_IZR; lra). assert (IZR z < IZR (trunc x + 1)) by (rewrite plus_IZR; lra).
  apply lt_IZR in H0. apply lt_IZR in H1. lia.
Qed.
Lemma from_simgrid_unit : forall t shape, (3 < t)%Z -> (t < shape / 2)%Z -> from_simgrid_pml (Some t) 1 shape = Some (Some t).
Proof.
  intros t shape H1 H2. unfold from_simgrid_pml, pml_cells.
  assert (E : trunc (IZR t / 1) = t). { apply trunc_unique; unfold Rdiv; rewrite Rinv_1, Rmult_1_r; [apply IZR_le; lia | lra]. }
  rewrite E. destruct (Z.leb_spec t 3); [lia |]. destruct (Z.leb_spec (shape / 2) t); [lia |]. reflexivity.
Qed.
Lemma from_simgrid_none : forall spacing shape, from_simgrid_pml None spacing shape = Some None.
Proof. reflexivity. Qed.
Lemma from_simgrid_fine : forall t spacing shape, (3 < t)%Z -> 0 < spacing <= 1 / 2 ->
  match from_simgrid_pml (Some t) spacing shape with
  | None => (shape / 2 <= trunc (IZR t / spacing))%Z
  | Some None => False
  | Some (Some u) => (2 * t <= u)%Z
  end.
Proof.
  intros t spacing shape Ht Hs. unfold from_simgrid_pml, pml_cells.
  assert (Hx : 2 * IZR t <= IZR t / spacing).
  { assert (0 < IZR t) by (apply IZR_lt; lia). apply (Rmult_le_reg_r spacing); [lra |].
    replace (IZR t / spacing * spacing) with (IZR t) by (field; lra). nra. }
  assert (Hpos : 0 < IZR t) by (apply IZR_lt; lia).
  pose proof (trunc_bounds (IZR t / spacing) ltac:(lra)) as [B1 B2].
  assert (G : (2 * t <= trunc (IZR t / spacing))%Z).
  { assert (IZR (2 * t) < IZR (trunc (IZR t / spacing) + 1)) by (rewrite mult_IZR, plus_IZR; lra). apply lt_IZR in H. lia. }
  destruct (Z.leb_spec (trunc (IZR t / spacing)) 3); [lia |]. destruct (Z.leb_spec (shape / 2) (trunc (IZR t / spacing))); cbn [orb]; auto.
Qed.
(** Exactly when the thickness survives. *)
Lemma from_simgrid_iff : forall t spacing shape, (3 < t)%Z -> (t < shape / 2)%Z -> 0 < spacing ->
  (from_simgrid_pml (Some t) spacing shape = Some (Some t) <-> IZR t / (IZR t + 1) < spacing <= 1).
Proof.
  intros t spacing shape H1 H2 Hs. assert (Hp : 0 < IZR t) by (apply IZR_lt; lia).
  assert (Hx : 0 <= IZR t / spacing) by (apply Rmult_le_pos; [lra | left; apply Rinv_0_lt_compat; auto]).
  assert (E : trunc (IZR t / spacing) = t <-> IZR t / (IZR t + 1) < spacing <= 1).
  { split.
    - intros E. pose proof (trunc_bounds _ Hx) as [B1 B2]. rewrite E in B1, B2.
      assert (D : IZR t / spacing * spacing = IZR t) by (field; lra). split.
      + apply (Rmult_lt_reg_r (IZR t + 1)); [lra |]. replace (IZR t / (IZR t + 1) * (IZR t + 1)) with (IZR t) by (field; lra). nra.
      + nra.
    - intros [A B]. assert (D : IZR t / spacing * spacing = IZR t) by (field; lra).
      assert (D2 : IZR t / (IZR t + 1) * (IZR t + 1) = IZR t) by (field; lra). apply trunc_unique; auto. split.
      + apply (Rmult_le_reg_r spacing); auto. rewrite D. nra.
      + apply (Rmult_lt_reg_r spacing); auto. rewrite D. nra. }
  rewrite <- E. unfold from_simgrid_pml, pml_cells. split.
  - destruct (_ || _)%bool; [discriminate |]. intros Q. injection Q. auto.
  - intros ->. destruct (Z.leb_spec t 3); [lia |]. destruct (Z.leb_spec (shape / 2) t); [lia |]. reflexivity.
Qed.
