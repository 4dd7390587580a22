(** Proofs for C155. *)
From Coq Require Import Reals ZArith Lra Lia.
From Flocq Require Import Core Relative.
From Verif Require Import Model_float Spec_float.
Local Open Scope R_scope.

Notation fexp := (FLT_exp (-1074) 53).
Lemma bp : forall e, bpow radix2 e = powerRZ 2 e.
Proof. intro e. rewrite bpow_powerRZ. reflexivity. Qed.
Ltac p2 := rewrite <- ?bp; repeat match goal with |- context [bpow radix2 ?e] => let v := eval vm_compute in e in change e with v end;
  unfold bpow; repeat match goal with |- context [Zpower_pos ?a ?b] => let v := eval vm_compute in (Zpower_pos a b) in change (Zpower_pos a b) with v end.
#[local] Instance prec53 : Prec_gt_0 53. Proof. unfold Prec_gt_0. lia. Qed.
Lemma format_iff : forall x, is_b64 x <-> generic_format radix2 fexp x.
Proof.
  intro x. split.
  - intros (m & e & E & Hm & He). apply generic_format_FLT. exists (Float radix2 m e); cbn [Fnum Fexp].
    + rewrite E. unfold F2R. cbn [Fnum Fexp]. rewrite bp. reflexivity.
    + exact Hm.
    + exact He.
  - intro H. apply FLT_format_generic in H; [| exact prec53]. destruct H as [[m e] E Hm He]. cbn [Fnum Fexp] in *. exists m, e. split; [| auto].
    rewrite E. unfold F2R. cbn [Fnum Fexp]. rewrite bp. reflexivity.
Qed.
Lemma b64_nearest : forall x, is_b64 (b64 x) /\ forall y, is_b64 y -> Rabs (b64 x - x) <= Rabs (y - x).
Proof.
  intro x. destruct (round_N_pt radix2 fexp (fun z => negb (Z.even z)) x) as [F N]. split; [apply format_iff; exact F |].
  intros y Hy. apply format_iff in Hy. exact (N y Hy).
Qed.
Lemma b64_id : forall x, is_b64 x -> b64 x = x.
Proof. intros x H. apply round_generic; [apply valid_rnd_N |]. apply format_iff, H. Qed.
Lemma b64_le : forall x y, x <= y -> b64 x <= b64 y.
Proof. intros. apply round_le; auto; [apply FLT_exp_valid; exact prec53 | apply valid_rnd_N]. Qed.
Lemma quarter : forall m, (Z.abs m < 2 ^ 53)%Z -> is_b64 (IZR m / 4).
Proof. intros m H. exists m, (-2)%Z. split; [p2; lra |]. split; [auto | lia]. Qed.
Lemma near_quotient : forall size spacing k, 0 < spacing -> (Z.abs k <= 2 ^ 50)%Z -> Rabs (size - IZR k * spacing) <= spacing / 4 ->
  IZR k - 1 / 4 <= b64 (size / spacing) <= IZR k + 1 / 4.
Proof.
  intros size spacing k Hd Hk H. apply Rabs_le_inv in H.
  assert (Q : IZR k - 1 / 4 <= size / spacing <= IZR k + 1 / 4).
  { split; apply (Rmult_le_reg_r spacing); auto; unfold Rdiv; rewrite (Rmult_assoc size), (Rinv_l spacing) by lra; lra. }
  assert (A : IZR k - 1 / 4 = IZR (4 * k - 1) / 4) by (rewrite minus_IZR, mult_IZR; lra).
  assert (B : IZR k + 1 / 4 = IZR (4 * k + 1) / 4) by (rewrite plus_IZR, mult_IZR; lra).
  split.
  - rewrite A. rewrite <- (b64_id (IZR (4 * k - 1) / 4)) by (apply quarter; lia). apply b64_le. lra.
  - rewrite B. rewrite <- (b64_id (IZR (4 * k + 1) / 4)) by (apply quarter; lia). apply b64_le. lra.
Qed.
Lemma around_quotient : forall size spacing k, 0 < spacing -> (Z.abs k <= 2 ^ 50)%Z -> Rabs (size - IZR k * spacing) <= spacing / 4 ->
  grid_cells size spacing = k.
Proof. intros size spacing k Hd Hk H. apply Znearest_imp. pose proof (near_quotient size spacing k Hd Hk H). apply Rabs_def1; lra. Qed.
(** The relative error of rounding a normal number. *)
Lemma rel_err : forall x, normal (Rabs x) -> Rabs (b64 x - x) <= / 2 ^ 53 * Rabs x.
Proof.
  intros x H. pose proof (relative_error_N_FLT radix2 (-1074) 53 prec53 (fun z => negb (Z.even z)) x) as E.
  rewrite bp in E. specialize (E H). eapply Rle_trans; [exact E |]. apply Rmult_le_compat_r; [apply Rabs_pos |]. rewrite bp.
  p2. lra.
Qed.
Lemma rel_err_pos : forall x, normal x -> 0 < x /\ Rabs (b64 x - x) <= / 2 ^ 53 * x.
Proof.
  intros x H. assert (P : 0 < powerRZ 2 (-1022)) by (apply powerRZ_lt; lra). unfold normal in H. split; [lra |].
  pose proof (rel_err x) as E. rewrite Rabs_pos_eq in E by lra. apply E. exact H.
Qed.
(** Sizes and spacings written as decimals. *)
Lemma decimal_close : forall D k, normal D -> (0 <= k <= 2 ^ 49)%Z -> 0 < b64 D /\ Rabs (b64 (IZR k * D) - IZR k * b64 D) <= b64 D / 4.
Proof.
  intros D k HD Hk. destruct (rel_err_pos D HD) as [HP HE].
  assert (U : / 2 ^ 53 = 1 / 9007199254740992) by (cbn; lra).
  assert (K : 0 <= IZR k <= 562949953421312) by (split; [apply (IZR_le 0); lia | apply (IZR_le k 562949953421312); lia]).
  rewrite U in HE. apply Rabs_le_inv in HE. assert (HB : 0 < b64 D) by lra. split; [exact HB |].
  destruct (Z.eq_dec k 0) as [-> | Hk0].
  { rewrite !Rmult_0_l. rewrite b64_id by (exists 0%Z, 0%Z; split; [p2; lra | split; [reflexivity | lia]]). rewrite Rminus_0_r, Rabs_R0. lra. }
  assert (K1 : 1 <= IZR k) by (apply (IZR_le 1); lia).
  destruct (rel_err_pos (IZR k * D)) as [_ HE']; [unfold normal in *; nra |]. rewrite U in HE'. apply Rabs_le_inv in HE'.
  assert (KD : IZR k * D <= 562949953421312 * D) by (apply Rmult_le_compat_r; lra).
  assert (E1 : IZR k * b64 D - IZR k * D = IZR k * (b64 D - D)) by ring.
  assert (E2 : - (1 / 16 * D) <= IZR k * (b64 D - D) <= 1 / 16 * D).
  { split.
    - apply Rle_trans with (IZR k * - (1 / 9007199254740992 * D)); [nra | apply Rmult_le_compat_l; lra].
    - apply Rle_trans with (IZR k * (1 / 9007199254740992 * D)); [apply Rmult_le_compat_l; lra | nra]. }
  apply Rabs_le. split; lra.
Qed.
Lemma decimal_cells : forall D k, normal D -> (0 <= k <= 2 ^ 49)%Z -> grid_cells (b64 (IZR k * D)) (b64 D) = k.
Proof. intros D k HD Hk. destruct (decimal_close D k HD Hk). apply around_quotient; auto; lia. Qed.
Lemma decimal_slice : forall D c n, normal D -> (0 <= c <= 2 ^ 49)%Z -> (0 < n <= 2 ^ 49)%Z ->
  slice_range (b64 (IZR c * D)) (b64 (IZR n * D)) (b64 D) = ((c - n / 2)%Z, (c - n / 2 + n)%Z).
Proof.
  intros D c n HD Hc Hn. unfold slice_range. fold (grid_cells (b64 (IZR c * D)) (b64 D)) (grid_cells (b64 (IZR n * D)) (b64 D)).
  rewrite !decimal_cells by (auto; lia). reflexivity.
Qed.
Lemma decimal_trunc : forall D k, normal D -> (0 < k <= 2 ^ 49)%Z ->
  (fill_count (b64 (IZR k * D)) (b64 D) = k \/ fill_count (b64 (IZR k * D)) (b64 D) = (k - 1)%Z).
Proof.
  intros D k HD Hk. destruct (decimal_close D k HD ltac:(lia)) as [P C].
  pose proof (near_quotient _ _ k P ltac:(lia) C) as [Q1 Q2]. unfold fill_count, int_of.
  assert (K1 : 1 <= IZR k) by (apply (IZR_le 1); lia). rewrite Ztrunc_floor by lra. set (x := b64 (b64 (IZR k * D) / b64 D)) in *.
  destruct (Rle_dec (IZR k) x); [left | right]; apply Zfloor_imp; rewrite ?minus_IZR, ?plus_IZR, ?minus_IZR; lra.
Qed.
Lemma exact_trunc : forall d k, is_b64 d -> 0 < d -> (0 <= k < 2 ^ 53)%Z -> fill_count (IZR k * d) d = k.
Proof.
  intros d k F P Hk. unfold fill_count, int_of. replace (IZR k * d / d) with (IZR k) by (field; lra).
  rewrite b64_id by (exists k, 0%Z; split; [p2; lra | split; lia]). apply Ztrunc_IZR.
Qed.
(** Evaluating b64 on positive numbers. *)
Lemma b64_calc : forall x (e m : Z), powerRZ 2 (e - 1) <= x < powerRZ 2 e -> (-1021 <= e)%Z -> Rabs (x * powerRZ 2 (53 - e) - IZR m) < / 2 -> b64 x = IZR m * powerRZ 2 (e - 53).
Proof.
  intros x e m H He Hm. unfold b64, round, F2R, scaled_mantissa. cbn [Fnum Fexp].
  assert (P : 0 < powerRZ 2 (e - 1)) by (apply powerRZ_lt; lra).
  assert (C : cexp radix2 fexp x = (e - 53)%Z).
  { unfold cexp. rewrite (mag_unique radix2 x e) by (rewrite !bp, Rabs_pos_eq by lra; exact H). unfold FLT_exp. lia. }
  rewrite C, !bp. replace (- (e - 53))%Z with (53 - e)%Z by lia. rewrite (Znearest_imp _ _ m Hm). reflexivity.
Qed.
Definition tenth : R := 3602879701896397 / 36028797018963968.
Definition three_tenths : R := 5404319552844595 / 18014398509481984.
Definition six_tenths : R := 5404319552844595 / 9007199254740992.
Lemma b64_tenth : b64 (1 / 10) = tenth.
Proof. rewrite (b64_calc (1/10) (-3) 7205759403792794); unfold tenth; [p2; lra | p2; lra | lia |]. p2. apply Rabs_def1; lra. Qed.
Lemma b64_three : b64 (3 / 10) = three_tenths.
Proof. rewrite (b64_calc (3/10) (-1) 5404319552844595); unfold three_tenths; [p2; lra | p2; lra | lia |]. p2. apply Rabs_def1; lra. Qed.
Lemma b64_six : b64 (b64 (3 / 10) + b64 (3 / 10)) = six_tenths.
Proof. rewrite b64_three. rewrite (b64_calc _ 0 5404319552844595); unfold three_tenths, six_tenths; [p2; lra | p2; lra | lia |]. p2. apply Rabs_def1; lra. Qed.
Lemma three_ratio : b64 (three_tenths / tenth) = 6755399441055743 / 2251799813685248.
Proof. rewrite (b64_calc _ 2 6755399441055743); unfold three_tenths, tenth; [p2; lra | p2; lra | lia |]. p2. apply Rabs_def1; lra. Qed.
Lemma six_ratio : b64 (six_tenths / tenth) = 6755399441055743 / 1125899906842624.
Proof. rewrite (b64_calc _ 3 6755399441055743); unfold six_tenths, tenth; [p2; lra | p2; lra | lia |]. p2. apply Rabs_def1; lra. Qed.
Lemma fill_short : fill_count (b64 (3 / 10)) (b64 (1 / 10)) = 2%Z.
Proof. unfold fill_count, int_of. rewrite b64_three, b64_tenth, three_ratio. rewrite Ztrunc_floor by lra. apply Zfloor_imp. cbn. lra. Qed.
Lemma box_shift : box_range (b64 (3 / 10)) (b64 (3 / 10)) (b64 (1 / 10)) = (2%Z, 5%Z).
Proof.
  unfold box_range. rewrite b64_six, b64_three, b64_tenth, three_ratio, six_ratio. unfold int_of. f_equal; rewrite Ztrunc_floor by lra; apply Zfloor_imp; cbn; lra.
Qed.
Lemma b64_six_literal : b64 (6 / 10) = six_tenths.
Proof. rewrite (b64_calc (6/10) 0 5404319552844595); unfold six_tenths; [p2; lra | p2; lra | lia |]. p2. apply Rabs_def1; lra. Qed.
Lemma pml_short : pml_cells (b64 (6 / 10)) (b64 (1 / 10)) = 5%Z.
Proof. unfold pml_cells, int_of. rewrite b64_six_literal, b64_tenth, six_ratio. rewrite Ztrunc_floor by lra. apply Zfloor_imp. cbn. lra. Qed.
