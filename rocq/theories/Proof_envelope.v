(** Back-of-the-envelope counts against the meshes the library builds. *)
From Coq Require Import Reals Lra Lia List ZArith Bool.
From Verif Require Import Cx Arr Model_coupling Model_forward Model_rect Model_vector Model_envelope Spec_mesh Proof_forward4 Proof_tree Proof_vector Proof_rect6.
Import ListNotations.
Local Open Scope R_scope.

Lemma ceil_ge : forall x, x <= ceil x /\ ceil x < x + 1.
Proof.
  intros x. unfold ceil. destruct (base_Int_part (- x)) as [H1 H2]. rewrite opp_IZR. lra.
Qed.
Lemma ceil_unique : forall x z, IZR z - 1 < x <= IZR z -> ceil x = IZR z.
Proof.
  intros x z [H1 H2]. destruct (ceil_ge x) as [G1 G2]. unfold ceil in *. set (q := (- Int_part (- x))%Z) in *. f_equal.
  assert (IZR z < IZR q + 1) by lra. assert (IZR q < IZR z + 1) by lra.
  rewrite <- plus_IZR in H, H0. apply lt_IZR in H, H0. lia.
Qed.
Lemma ceil_least : forall x z, x <= IZR z -> ceil x <= IZR z.
Proof.
  intros x z H. destruct (ceil_ge x) as [_ G]. unfold ceil in *. set (q := (- Int_part (- x))%Z) in *. apply IZR_le.
  assert (IZR q < IZR z + 1) by lra. rewrite <- plus_IZR in H0. apply lt_IZR in H0. lia.
Qed.
Lemma ln2_pos : 0 < ln 2. Proof. rewrite <- ln_1. apply ln_increasing; lra. Qed.
Lemma ln10_pos : 0 < ln 10. Proof. rewrite <- ln_1. apply ln_increasing; lra. Qed.
Lemma ln_pow2 : forall k, ln (2 ^ k) = INR k * ln 2.
Proof. intros k. induction k as [| k IH]; [cbn; rewrite ln_1; ring |]. rewrite <- tech_pow_Rmult, ln_mult, IH, S_INR by (try lra; apply pow_lt; lra). ring. Qed.
Lemma ceil_log2 : forall n, (1 <= n)%nat -> ceil (log2 (INR n)) = IZR (Z.of_nat (Nat.log2_up n)).
Proof.
  intros n Hn. apply ceil_unique. pose proof ln2_pos as L. unfold log2. rewrite <- INR_IZR_INZ.
  assert (P : 0 < INR n) by (apply lt_0_INR; lia).
  destruct (Nat.eq_dec n 1) as [-> | N1].
  - rewrite (Nat.log2_up_eqn0 1) by lia. cbn [INR]. rewrite ln_1. unfold Rdiv. lra.
  - destruct (Nat.log2_up_spec n ltac:(lia)) as [S1 S2]. set (k := Nat.log2_up n) in *.
    assert (K : (0 < k)%nat) by (apply Nat.log2_up_pos; lia).
    assert (A : 2 ^ (pred k) < INR n) by (replace 2 with (INR 2) by (cbn; ring); rewrite <- pow_INR; apply lt_INR; exact S1).
    assert (B : INR n <= 2 ^ k) by (replace 2 with (INR 2) by (cbn; ring); rewrite <- pow_INR; apply le_INR; exact S2).
    assert (A' : INR (pred k) * ln 2 < ln (INR n)) by (rewrite <- ln_pow2; apply ln_increasing; [apply pow_lt; lra | exact A]).
    assert (B' : ln (INR n) <= INR k * ln 2). { rewrite <- ln_pow2. destruct B as [B | B]; [left; apply ln_increasing; assumption | rewrite B; lra]. }
    replace (INR k - 1) with (INR (pred k)) by (destruct k; [lia | cbn [pred]; rewrite S_INR; ring]).
    split.
    + apply Rmult_lt_reg_r with (ln 2); [exact L |]. unfold Rdiv. rewrite Rmult_assoc, Rinv_l by lra. lra.
    + apply Rmult_le_reg_r with (ln 2); [exact L |]. unfold Rdiv. rewrite Rmult_assoc, Rinv_l by lra. lra.
Qed.
Lemma rect_columns : forall n u m p, (2 <= n)%nat -> rectangular n u = Some (m, p) -> num_columns m = (if Nat.eqb n 2 then 1 else Z.of_nat n)%Z.
Proof. intros n u m p Hn E. destruct (rectangular_geometry n u Hn) as (m' & p' & E' & _ & _ & _ & K & _). assert (m = m') by congruence. subst m'. exact K. Qed.
Lemma tree_columns : forall n s t, (2 <= n)%nat -> tree n n true s = Some t -> num_columns t = Z.of_nat (Nat.log2_up n).
Proof. intros n s t Hn E. destruct (tree_balanced n n s Hn (le_n n)) as (m & E' & _ & _ & _ & _ & K & _). assert (t = m) by congruence. subst m. exact K. Qed.
Lemma rect_layers : forall n s u v t m1 p1 m2 p2 d len lo, (2 <= n)%nat -> tree n n true s = Some t -> rectangular n u = Some (m1, p1) -> rectangular n v = Some (m2, p2) ->
  layers (rectangular_depth_size (INR n) d len lo false) = IZR (num_columns t + num_columns m1) + (if Nat.eqb n 2 then 1 else 0) /\
  layers (rectangular_depth_size (INR n) d len lo true) = IZR (num_columns t + num_columns m1 + 1 + num_columns m2) + (if Nat.eqb n 2 then 2 else 0).
Proof.
  intros n s u v t m1 p1 m2 p2 d len lo Hn Et E1 E2. rewrite (rect_columns n u m1 p1 Hn E1), (rect_columns n v m2 p2 Hn E2), (tree_columns n s t Hn Et).
  unfold rectangular_depth_size, env. cbn [layers]. rewrite ceil_log2 by lia. rewrite !plus_IZR. destruct (Nat.eqb_spec n 2) as [-> | N].
  - cbn [INR]. split; ring.
  - rewrite <- (INR_IZR_INZ n). split; ring.
Qed.
Lemma tree_layers : forall n s t k ne d len lo, (2 <= n)%nat -> tree n n true s = Some t ->
  layers (binary_svd_depth_size (INR n) k d len lo) = (k + 1) * IZR (num_columns t) + (k + 1) /\
  layers (binary_equiv_cascade_size (INR n) ne d len lo) = (equiv_k (INR n) ne + 1) * IZR (num_columns t) + (equiv_k (INR n) ne + 1).
Proof.
  intros n s t k ne d len lo Hn Et. rewrite (tree_columns n s t Hn Et). unfold binary_svd_depth_size, binary_equiv_cascade_size, env. cbn [layers].
  rewrite ceil_log2 by lia. split; ring.
Qed.
Lemma footprints : forall n k ne d len lo svd, let ok e := footprint e = length_cm e * height_cm e /\ length_cm e = len / 10000 * layers e in
  ok (binary_svd_depth_size n k d len lo) /\ ok (rectangular_depth_size n d len lo svd) /\ ok (binary_equiv_cascade_size n ne d len lo).
Proof.
  intros. unfold ok, binary_svd_depth_size, rectangular_depth_size, binary_equiv_cascade_size, env. cbn [footprint length_cm height_cm layers].
  repeat split; field.
Qed.
Lemma equiv_least : forall n ne, 0 < n -> ne ^ 2 <= equiv_k n ne * n /\ (exists j, equiv_k n ne = IZR j) /\ forall j, ne ^ 2 <= IZR j * n -> equiv_k n ne <= IZR j.
Proof.
  intros n ne Hn. unfold equiv_k. destruct (ceil_ge (ne ^ 2 / n)) as [G _]. split; [| split; [unfold ceil; eauto |]].
  - apply Rmult_le_compat_r with (r := n) in G; [| lra]. replace (ne ^ 2 / n * n) with (ne ^ 2) in G by (field; lra). exact G.
  - intros j Hj. apply ceil_least. apply Rmult_le_reg_r with n; [exact Hn |]. replace (ne ^ 2 / n * n) with (ne ^ 2) by (field; lra). exact Hj.
Qed.
Lemma log10_nonneg : forall x, 1 <= x -> 0 <= log10 x.
Proof.
  intros x H. unfold log10. apply Rmult_le_pos; [| left; apply Rinv_0_lt_compat, ln10_pos]. rewrite <- ln_1. destruct H as [H | H]; [left; apply ln_increasing; lra | rewrite H; lra].
Qed.
Lemma log10_inv : forall x, 1 <= x -> log10 (1 / x) <= 0.
Proof. intros x H. pose proof (log10_nonneg x H). unfold log10 in *. replace (1 / x) with (/ x) by (field; lra). rewrite ln_Rinv by lra. replace (- ln x / ln 10) with (- (ln x / ln 10)) by (field; pose proof ln10_pos; lra). lra. Qed.
Lemma ceil_ge1 : forall x, 0 < x -> 1 <= ceil x.
Proof. intros x H. destruct (ceil_ge x) as [G _]. unfold ceil in *. apply IZR_le. assert (0 < IZR (- Int_part (- x))) by lra. apply lt_IZR in H0. lia. Qed.
Lemma no_gain : forall n k ne d len lo svd, (1 <= n)%nat -> (1 <= k)%nat -> 0 <= lo ->
  loss_dB (binary_svd_depth_size (INR n) (INR k) d len lo) <= 0 /\ loss_dB (rectangular_depth_size (INR n) d len lo svd) <= 0 /\
  loss_dB (binary_equiv_cascade_size (INR n) ne d len lo) <= 0.
Proof.
  intros n k ne d len lo svd Hn Hk Hl. assert (P : 1 <= INR n) by (replace 1 with (INR 1) by reflexivity; apply le_INR; exact Hn).
  assert (Q : 1 <= INR k) by (replace 1 with (INR 1) by reflexivity; apply le_INR; exact Hk).
  pose proof (ceil_log2 n Hn) as CL. assert (C0 : 0 <= ceil (log2 (INR n))) by (rewrite CL; apply IZR_le; lia).
  pose proof (log10_inv (INR n) P). pose proof (log10_nonneg (INR n) P).
  assert (W : 1 <= ceil (INR n / INR k)) by (apply ceil_ge1; apply Rmult_lt_0_compat; [lra | apply Rinv_0_lt_compat; lra]). pose proof (log10_inv _ W).
  assert (E : 0 <= equiv_k (INR n) ne).
  { unfold equiv_k. destruct (ceil_ge (ne ^ 2 / INR n)) as [G _]. apply Rle_trans with (ne ^ 2 / INR n); [| exact G].
    apply Rmult_le_pos; [replace (ne ^ 2) with (ne * ne) by ring; apply Rle_0_sqr | left; apply Rinv_0_lt_compat; lra]. }
  unfold binary_svd_depth_size, rectangular_depth_size, binary_equiv_cascade_size, env. cbn [loss_dB].
  set (c := ceil (log2 (INR n))) in *. set (kk := equiv_k (INR n) ne) in *.
  assert (0 <= (c + INR k * c + (INR k + 1)) * lo) by (apply Rmult_le_pos; [| exact Hl]; assert (0 <= INR k * c) by (apply Rmult_le_pos; lra); lra).
  assert (0 <= (c + kk * c + (kk + 1)) * lo) by (apply Rmult_le_pos; [| exact Hl]; assert (0 <= kk * c) by (apply Rmult_le_pos; lra); lra).
  split; [| split; [| lra]].
  - lra.
  - destruct svd.
    + assert (0 <= (c + (INR n * (1 + 1) + 1)) * lo) by (apply Rmult_le_pos; lra). lra.
    + assert (0 <= (c + (INR n * (1 + 0) + 0)) * lo) by (apply Rmult_le_pos; lra). lra.
Qed.
