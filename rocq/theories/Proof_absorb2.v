(** A line with layers (C153). *)
From Coq Require Import Reals Lra Lia List Arith Bool FunctionalExtensionality.
From Verif Require Import Cx Arr Model_coupling Model_yee Spec_yee Proof_yee Proof_yee2 Model_fdfd Spec_fdfd Proof_scpml Proof_fdfd Proof_fdfd2 Spec_absorb Proof_absorb.
Local Open Scope R_scope.

Lemma stretch_parts : forall d n t p lr pe w x, line_with_layers d n t p lr pe w -> (x < n)%nat ->
  (0 < re (d_dxf d AX x) /\ im (d_dxf d AX x) <= 0 /\ 0 < re (d_dxb d AX x) /\ im (d_dxb d AX x) <= 0) /\
  ((t <= x <= n - t)%nat -> im (d_dxf d AX x) = 0 /\ im (d_dxb d AX x) = 0) /\
  (~ (t <= x <= n - t)%nat -> im (d_dxf d AX x) < 0 /\ im (d_dxb d AX x) < 0).
Proof.
  intros d n t p lr pe w x (_ & _ & Hp & Hl & Hpe & Hk & Hw & Ht & Hn & HX & _) Hx. destruct (HX x) as [-> ->].
  destruct (scpml_shape p lr (d_k0 d) pe w n t false x Hp Hl Hk Hpe Hw ltac:(lia) Hn Hx) as (R1 & [_ I1] & Q1).
  destruct (scpml_shape p lr (d_k0 d) pe w n t true x Hp Hl Hk Hpe Hw ltac:(lia) Hn Hx) as (R2 & [_ I2] & Q2).
  set (u := scpml p lr (d_k0 d) pe w n t false x) in *. set (v := scpml p lr (d_k0 d) pe w n t true x) in *.
  assert (ReM : forall z, re (RtoC w * z)%C = w * re z) by (intro; cbn; ring). assert (ImM : forall z, im (RtoC w * z)%C = w * im z) by (intro; cbn; ring).
  rewrite !ReM, !ImM, R1, R2. split; [repeat split; nra |]. split.
  - intro H. rewrite (proj2 Q1 H), (proj2 Q2 H). cbn. split; ring.
  - intro H. assert (N1 : im u <> 0) by (intro E; apply H, Q1; apply C_eq; auto). assert (N2 : im v <> 0) by (intro E; apply H, Q2; apply C_eq; auto). split; nra.
Qed.
Lemma line_axis : forall d n t p lr pe w a, line_with_layers d n t p lr pe w -> a <> AX -> real_axis (d_shape d) (d_dxf d) (d_dxb d) a.
Proof. intros d n t p lr pe w a (_ & _ & _ & _ & _ & _ & _ & _ & _ & _ & HO & _) Ha. exists 1. split; [lra |]. intros m _. apply HO. exact Ha. Qed.
Lemma line_nz : forall d n t p lr pe w, line_with_layers d n t p lr pe w -> forall m, (m < d_shape d AX)%nat -> d_dxf d AX m <> C0 /\ d_dxb d AX m <> C0.
Proof.
  intros d n t p lr pe w L m Hm. assert (Es : d_shape d AX = n) by (destruct L as (-> & _); reflexivity). rewrite Es in Hm.
  destruct (stretch_parts d n t p lr pe w m L Hm) as ((R1 & _ & R2 & _) & _). split; intro E; rewrite E in *; cbn in *; lra.
Qed.
(** On a line the normal components are those of the source. *)
Lemma line_normal : forall d n t p lr pe w e h src m, line_with_layers d n t p lr pe w -> faraday (d_shape d) (d_dxf d) (d_k0 d) e h ->
  ampere (d_shape d) (d_dxb d) (d_k0 d) (d_eps d) e h src -> (m < n)%nat ->
  h AX m 0%nat 0%nat = C0 /\ src AX m 0%nat 0%nat = (- (RtoC (d_k0 d) * RtoC (d_eps d AX m 0%nat 0%nat) * e AX m 0%nat 0%nat))%C.
Proof.
  intros d n t p lr pe w e h src m L F A Hm. pose proof L as (Es & _ & _ & _ & _ & Hk & _).
  assert (I : in_grid (d_shape d) m 0 0) by (rewrite Es; repeat split; auto).
  pose proof (F AX m 0%nat 0%nat I) as E. pose proof (A AX m 0%nat 0%nat I) as B. rewrite Es in E, B. unfold curl_of, fwd, bwd in E, B. cbn [coord at_coord succ_p pred_p Nat.eqb Nat.add Nat.sub] in E, B.
  assert (Z : forall u v x y : C, ((u - u) / x - (v - v) / y)%C = C0) by (intros; unfold Cdiv; ring). rewrite Z in E, B.
  assert (K : RtoC (d_k0 d) <> C0) by (apply RtoC_neq0; lra).
  assert (CI : Ci <> C0) by (intro X; apply (f_equal im) in X; cbn in X; lra). split.
  - assert (P : (Ci * RtoC (d_k0 d) * h AX m 0%nat 0%nat)%C = C0) by (symmetry; exact E).
    transitivity (Ci * RtoC (d_k0 d) * h AX m 0%nat 0%nat / (Ci * RtoC (d_k0 d)))%C; [field; split; auto |]. rewrite P. unfold Cdiv. ring.
  - transitivity ((Ci * src AX m 0%nat 0%nat) / Ci)%C; [field; auto |].
    assert (P : (Ci * src AX m 0%nat 0%nat = - (Ci * RtoC (d_k0 d) * RtoC (d_eps d AX m 0%nat 0%nat) * e AX m 0%nat 0%nat))%C).
    { assert (X : forall x y : C, C0 = (- x - y)%C -> y = (- x)%C) by (intros x y HH; replace y with (- x - (- x - y))%C by ring; rewrite <- HH; ring). apply X. exact B. }
    rewrite P. field. auto.
Qed.
Lemma Rsum1 : forall f, Rsum 1 f = f 0%nat.
Proof. intro f. cbn. ring. Qed.
Lemma line_balance : forall d n t p lr pe w e h src m, line_with_layers d n t p lr pe w -> faraday (d_shape d) (d_dxf d) (d_k0 d) e h ->
  ampere (d_shape d) (d_dxb d) (d_k0 d) (d_eps d) e h src -> (m < n)%nat ->
  let s := d_shape d in let m' := succ_p n m in
  power_through s e h AX m' = power_through s e h AX m
    - - im (d_dxf d AX m) * (d_k0 d * (Cn2 (h AY m 0%nat 0%nat) + Cn2 (h AZ m 0%nat 0%nat)))
    - - im (d_dxb d AX m') * (d_k0 d * (d_eps d AY m' 0%nat 0%nat * Cn2 (e AY m' 0%nat 0%nat) + d_eps d AZ m' 0%nat 0%nat * Cn2 (e AZ m' 0%nat 0%nat)))
    + given_t s (d_dxb d) e src AX m'.
Proof.
  intros d n t p lr pe w e h src m L F A Hm s m'. assert (Es : d_shape d AX = n) by (destruct L as (-> & _); reflexivity).
  assert (Hm' : (m' < n)%nat) by (apply succ_lt; auto).
  pose proof (balance_plane s (d_dxf d) (d_dxb d) (d_k0 d) (d_eps d) e h src AX m F A (fun b Hb => line_axis d n t p lr pe w b L Hb) (line_nz d n t p lr pe w L) ltac:(unfold s; rewrite Es; exact Hm)) as B.
  cbv zeta in B. replace (succ_p (s AX) m) with m' in B by (unfold s; rewrite Es; reflexivity). rewrite B. clear B.
  destruct (line_normal d n t p lr pe w e h src m L F A Hm) as [_ Sx]. destruct (line_normal d n t p lr pe w e h src m' L F A Hm') as [Hx _].
  assert (SY : s AY = 1%nat) by (unfold s; destruct L as (-> & _); reflexivity). assert (SZ : s AZ = 1%nat) by (unfold s; destruct L as (-> & _); reflexivity).
  assert (T1 : im (d_dxf d AX m) * taken_h s (d_k0 d) (d_eps d) e h AX m + given_n s (d_dxf d) e src AX m = im (d_dxf d AX m) * (d_k0 d * (Cn2 (h AY m 0%nat 0%nat) + Cn2 (h AZ m 0%nat 0%nat)))).
  { unfold taken_h, given_n. cbn [plane after]. rewrite SY, SZ, !Rsum1, Sx. unfold Cn2. cbn. ring. }
  assert (T2 : taken_e s (d_k0 d) (d_eps d) e h AX m' = d_k0 d * (d_eps d AY m' 0%nat 0%nat * Cn2 (e AY m' 0%nat 0%nat) + d_eps d AZ m' 0%nat 0%nat * Cn2 (e AZ m' 0%nat 0%nat))).
  { unfold taken_e. cbn [plane after]. rewrite SY, SZ, !Rsum1, Hx, Cn2_C0. ring. }
  rewrite T2. lra.
Qed.
Lemma given_zero : forall s dxb e src a m, on_plane s a m (fun i j k => forall c, src c i j k = C0) -> (m < s a)%nat -> given_t s dxb e src a m = 0.
Proof.
  intros s dxb e src a m H Hm. unfold given_t.
  assert (T : forall i j k, in_grid s i j k -> coord a i j k = m -> re (Ci * Cconj (dxb a m) * (e (after a) i j k * Cconj (src (after a) i j k) + e (after (after a)) i j k * Cconj (src (after (after a)) i j k)))%C = 0).
  { intros i j k I Ec. rewrite !(H i j k I Ec), Cconj_C0. cbn. ring. }
  destruct a; cbn [plane]; apply Rsum_0; intros x Hx; apply Rsum_0; intros y Hy; apply T; (repeat split; auto) || reflexivity.
Qed.
Lemma line_flow : forall d n t p lr pe w e h src m, line_with_layers d n t p lr pe w -> faraday (d_shape d) (d_dxf d) (d_k0 d) e h ->
  ampere (d_shape d) (d_dxb d) (d_k0 d) (d_eps d) e h src -> (m + 1 < n)%nat -> (forall c, src c (m + 1)%nat 0%nat 0%nat = C0) ->
  power_through (d_shape d) e h AX (m + 1) <= power_through (d_shape d) e h AX m /\
  ((t <= m)%nat -> (m + 1 <= n - t)%nat -> power_through (d_shape d) e h AX (m + 1) = power_through (d_shape d) e h AX m).
Proof.
  intros d n t p lr pe w e h src m L F A Hm S0. pose proof (line_balance d n t p lr pe w e h src m L F A ltac:(lia)) as B. cbv zeta in B.
  assert (Em : succ_p n m = (m + 1)%nat) by (unfold succ_p; destruct (Nat.eqb_spec (m + 1) n); [lia | reflexivity]). rewrite Em in B.
  assert (Es : d_shape d = (fun a => match a with AX => n | _ => 1%nat end)) by (destruct L as (-> & _); reflexivity).
  rewrite (given_zero (d_shape d) (d_dxb d) e src AX (m + 1)) in B.
  2: { intros i j k (_ & Hj & Hk) Ec c. rewrite Es in Hj, Hk. cbn in Ec, Hj, Hk. subst i. replace j with 0%nat by lia. replace k with 0%nat by lia. apply S0. }
  2: { rewrite Es. exact Hm. }
  destruct (stretch_parts d n t p lr pe w m L ltac:(lia)) as ((_ & I1 & _) & Z1 & _).
  destruct (stretch_parts d n t p lr pe w (m + 1) L ltac:(lia)) as ((_ & _ & _ & I2) & Z2 & _).
  pose proof L as (_ & _ & _ & _ & _ & Hk & _ & _ & _ & _ & _ & EP).
  set (U := d_k0 d * (Cn2 (h AY m 0%nat 0%nat) + Cn2 (h AZ m 0%nat 0%nat))) in *. set (V := d_k0 d * (_ * Cn2 (e AY (m + 1)%nat 0%nat 0%nat) + _)) in *.
  assert (HU : 0 <= U). { unfold U. apply Rmult_le_pos; [lra |]. pose proof (Cn2_nonneg (h AY m 0%nat 0%nat)). pose proof (Cn2_nonneg (h AZ m 0%nat 0%nat)). lra. }
  assert (HV : 0 <= V). { unfold V. apply Rmult_le_pos; [lra |]. apply Rplus_le_le_0_compat; (apply Rmult_le_pos; [left; apply EP | apply Cn2_nonneg]). }
  split; [rewrite B; nra |]. intros H1 H2. rewrite B, (proj1 (Z1 ltac:(lia))), (proj2 (Z2 ltac:(lia))). ring.
Qed.
(** Around the ring: what the sources give is what the layers take. *)
Lemma ring_sum : forall n (f : nat -> R), Rsum n (fun m => f (succ_p n m)) = Rsum n f.
Proof.
  intros [| n] f; [reflexivity |]. rewrite (Rsum_shift n f). cbn [Rsum]. unfold succ_p at 2. rewrite (proj2 (Nat.eqb_eq (n + 1) (Datatypes.S n))) by lia.
  rewrite (Rsum_ext n (fun m => f (succ_p (Datatypes.S n) m)) (fun m => f (Datatypes.S m))); [ring |].
  intros m Hm. unfold succ_p. destruct (Nat.eqb_spec (m + 1) (Datatypes.S n)); [lia |]. replace (m + 1)%nat with (Datatypes.S m) by lia. reflexivity.
Qed.
Lemma line_total : forall d n t p lr pe w e h src, line_with_layers d n t p lr pe w -> faraday (d_shape d) (d_dxf d) (d_k0 d) e h ->
  ampere (d_shape d) (d_dxb d) (d_k0 d) (d_eps d) e h src ->
  Rsum n (given_t (d_shape d) (d_dxb d) e src AX) =
  Rsum n (fun m => - im (d_dxf d AX m) * (d_k0 d * (Cn2 (h AY m 0%nat 0%nat) + Cn2 (h AZ m 0%nat 0%nat))) +
    - im (d_dxb d AX m) * (d_k0 d * (d_eps d AY m 0%nat 0%nat * Cn2 (e AY m 0%nat 0%nat) + d_eps d AZ m 0%nat 0%nat * Cn2 (e AZ m 0%nat 0%nat)))).
Proof.
  intros d n t p lr pe w e h src L F A.
  set (P := power_through (d_shape d) e h AX). set (G := given_t (d_shape d) (d_dxb d) e src AX).
  set (U := fun m => - im (d_dxf d AX m) * (d_k0 d * (Cn2 (h AY m 0%nat 0%nat) + Cn2 (h AZ m 0%nat 0%nat)))).
  set (V := fun m => - im (d_dxb d AX m) * (d_k0 d * (d_eps d AY m 0%nat 0%nat * Cn2 (e AY m 0%nat 0%nat) + d_eps d AZ m 0%nat 0%nat * Cn2 (e AZ m 0%nat 0%nat)))).
  change (Rsum n G = Rsum n (fun m => U m + V m)).
  assert (B : forall m, (m < n)%nat -> G (succ_p n m) = P (succ_p n m) - P m + U m + V (succ_p n m)).
  { intros m Hm. pose proof (line_balance d n t p lr pe w e h src m L F A Hm) as B. cbv zeta in B. fold P in B. fold G in B. fold (U m) in B. fold (V (succ_p n m)) in B. lra. }
  rewrite <- (ring_sum n G). rewrite (Rsum_ext n _ _ B). rewrite !Rsum_add, Rsum_sub, (ring_sum n P), (ring_sum n V). ring.
Qed.
Lemma fields_for : forall d e, d_k0 d <> 0 -> faraday (d_shape d) (d_dxf d) (d_k0 d) e (h_for d e) /\ ampere (d_shape d) (d_dxb d) (d_k0 d) (d_eps d) e (h_for d e) (src_for d e).
Proof.
  intros d e Hk. assert (K := RtoC_neq0 _ Hk). assert (CI : Ci <> C0) by (intro X; apply (f_equal im) in X; cbn in X; lra). split; intros c i j k I.
  - unfold h_for. field. split; auto.
  - unfold src_for. set (z := curl_of _ (h_for d e) c i j k). generalize (e c i j k) as y. intro y. generalize (RtoC (d_k0 d) * RtoC (d_eps d c i j k))%C as q. intro q.
    apply C_eq; cbn; ring.
Qed.
Lemma line12_ok : line_with_layers line12 12 4 4 (-16) 1 1.
Proof.
  unfold line_with_layers. cbn [d_shape d_bloch d_k0 d_dxf d_dxb d_eps line12].
  split; [reflexivity |]. split; [reflexivity |]. split; [lia |]. split; [lra |]. split; [lra |]. split; [lra |]. split; [lra |]. split; [lia |]. split; [lia |].
  split; [intro x; split; reflexivity |]. split; [| intros; lra]. intros [] x H; [contradiction | |]; split; reflexivity.
Qed.
Lemma wave3_ok : src_for line12 wave3 AZ 6%nat 0%nat 0%nat = C0 /\ power_through (d_shape line12) wave3 (h_for line12 wave3) AX 5 = -1.
Proof.
  assert (S1 : forall o x, (4 <= x <= 8)%nat -> scpml 4 (-16) 1 1 1 12 4 o x = C1).
  { intros o x H. apply (proj2 (proj2 (scpml_shape 4 (-16) 1 1 1 12 4 o x ltac:(lia) ltac:(lra) ltac:(lra) ltac:(lra) ltac:(lra) ltac:(lia) ltac:(lia) ltac:(lia)))). exact H. }
  assert (HY : h_for line12 wave3 AY 5%nat 0%nat 0%nat = mkC (-1) (-1) /\ h_for line12 wave3 AY 6%nat 0%nat 0%nat = mkC 1 (-1) /\ h_for line12 wave3 AX 6%nat 0%nat 0%nat = C0).
  { unfold h_for, curl_of, fwd, succ_p. cbn [d_shape d_dxf d_k0 line12 coord at_coord wave3 only_z Nat.add Nat.eqb]. rewrite !S1 by lia.
    repeat split; apply C_eq; unfold Cdiv, Cinv, Cn2; cbn; field. }
  destruct HY as (H5 & H6 & HX). split.
  - unfold src_for, curl_of, bwd. cbn [coord at_coord pred_p]. rewrite H5, H6. cbn [d_shape d_dxb d_k0 d_eps line12 Nat.sub]. rewrite !S1 by lia. rewrite HX.
    apply C_eq; unfold Cdiv, Cinv, Cn2; cbn; field.
  - unfold power_through. cbn [after plane]. cbn [d_shape line12]. rewrite !Rsum1, H5. cbn. ring.
Qed.
