(** Proofs about Model_mode: the unidirectional source on a lattice waveguide. *)
From Coq Require Import Reals List Arith ZArith Lra Lia Bool.
From Verif Require Import Cx Arr Model_coupling Model_yee Model_fdfd Model_grid Model_mode Spec_mode.
Local Open Scope R_scope.

Lemma Cmul_cancel'' : forall c a b, c <> C0 -> (a * c)%C = (b * c)%C -> a = b.
Proof. intros c a b H E. replace a with (a * c / c)%C by (field; exact H). rewrite E. field. exact H. Qed.
Lemma cis_inj_cos : forall a b, cis a = cis b -> cos a = cos b.
Proof. intros a b H. apply (f_equal re) in H. exact H. Qed.
(** The lattice free wave is never e^{-i beta dx}. *)
Lemma cos_lt : forall x, x <> 0 -> 1 - x * x / 2 < cos x.
Proof.
  assert (P : forall x, 0 < x -> 1 - x * x / 2 < cos x).
  { intros x Hx. replace x with (2 * (x / 2)) at 3 by field. rewrite cos_2a_sin.
    pose proof (sin_lt_x (x / 2) ltac:(lra)) as H1.
    assert (H2 : - (x / 2) < sin (x / 2)).
    { destruct (Rle_dec (x / 2) PI) as [L | G].
      - pose proof (sin_ge_0 (x / 2) ltac:(lra) L). lra.
      - pose proof (proj1 (SIN_bound (x / 2))). pose proof PI2_1. lra. }
    set (s := sin (x / 2)) in *. set (y := x / 2) in *. assert (Hs : s * s < y * y) by nra. replace (x * x / 2) with (2 * (y * y)) by (unfold y; field). lra. }
  intros x Hx. destruct (Rlt_dec 0 x) as [L | G]; [auto |].
  rewrite <- cos_neg. replace (x * x) with ((- x) * (- x)) by ring. apply P. lra.
Qed.
Lemma free_wave_detuned : forall beta dx b, beta * dx <> 0 -> free_wave beta dx b -> cis (- (b * dx)) <> cis (- (beta * dx)).
Proof.
  intros beta dx b Hb [_ H] E. apply cis_inj_cos in E. rewrite !cos_neg in E. pose proof (cos_lt _ Hb) as L. rewrite <- E in L. lra.
Qed.

Section Uni.
Variables (beta dx b : R) (p0 shift : Z) (u : Z -> C) (R L : C).
Hypothesis Hs : shift = 1%Z \/ shift = (-1)%Z.
Hypothesis Hf : free_wave beta dx b.
Hypothesis Hu : lattice_wave beta dx (uni_source beta dx p0 shift) u.
Hypothesis HR : outgoing_at b dx u (p0 + shift) shift R.
Hypothesis HL : outgoing_at b dx u p0 (- shift) L.
Let q := cis (- (b * dx)).
Let c := cis (- (beta * dx)).

Lemma q_disp : (q * q + C1 = RtoC (2 - beta * beta * (dx * dx)) * q)%C.
Proof.
  destruct Hf as [_ H]. replace (2 - beta * beta * (dx * dx)) with (2 * cos (b * dx)) by lra.
  unfold q. rewrite cis_opp. unfold cis, Cconj. apply C_eq; cbn; [| ring].
  pose proof (sin2_cos2 (b * dx)) as S. unfold Rsqr in S. lra.
Qed.
Lemma src0 : uni_source beta dx p0 shift p0 = C1.
Proof. unfold uni_source. rewrite Z.eqb_refl. reflexivity. Qed.
Lemma src1 : uni_source beta dx p0 shift (p0 + shift) = (- c)%C.
Proof.
  unfold uni_source. destruct (Z.eqb_spec (p0 + shift) p0); [exfalso; lia |]. rewrite Z.eqb_refl.
  replace (- dx * beta - PI) with (- (beta * dx) + PI + 2 * PI * IZR (-1)) by (cbn; ring). rewrite cis_period, cis_add, cis_PI. unfold c. ring.
Qed.
Lemma u_at0 : u p0 = L.
Proof. pose proof (HL 0%nat) as H. cbn in H. rewrite Z.mul_0_r, Z.add_0_r in H. rewrite H. replace (- (b * dx * 0)) with 0 by ring. rewrite cis_0. ring. Qed.
Lemma u_m1 : u (p0 - shift)%Z = (L * q)%C.
Proof. pose proof (HL 1%nat) as H. rewrite Z.mul_1_r in H. replace (p0 + - shift)%Z with (p0 - shift)%Z in H by lia. rewrite H. cbn [INR]. rewrite Rmult_1_r. reflexivity. Qed.
Lemma u_p1 : u (p0 + shift)%Z = R.
Proof. pose proof (HR 0%nat) as H. cbn in H. rewrite Z.mul_0_r, Z.add_0_r in H. rewrite H. replace (- (b * dx * 0)) with 0 by ring. rewrite cis_0. ring. Qed.
Lemma u_p2 : u (p0 + shift + shift)%Z = (R * q)%C.
Proof. pose proof (HR 1%nat) as H. rewrite Z.mul_1_r in H. rewrite H. cbn [INR]. rewrite Rmult_1_r. reflexivity. Qed.
Lemma lat_sym : forall x, (u (x + shift)%Z + u (x - shift)%Z - RtoC (2 - beta * beta * (dx * dx)) * u x = RtoC (dx * dx) * uni_source beta dx p0 shift x)%C.
Proof.
  intro x. pose proof (Hu x) as H. rewrite RtoC_sub. destruct Hs as [-> | ->].
  - rewrite <- H. ring.
  - replace (x + -1)%Z with (x - 1)%Z by lia. replace (x - -1)%Z with (x + 1)%Z by lia. rewrite <- H. ring.
Qed.
Lemma eq0 : (R * q - L = RtoC (dx * dx) * q)%C.
Proof.
  pose proof (lat_sym p0) as H. rewrite src0, u_at0, u_p1, u_m1 in H. pose proof q_disp as D.
  transitivity ((R + L * q - RtoC (2 - beta * beta * (dx * dx)) * L) * q)%C; [| rewrite H; ring].
  transitivity (R * q - L + L * ((q * q + C1) - RtoC (2 - beta * beta * (dx * dx)) * q))%C; [rewrite D; ring | ring].
Qed.
Lemma eq1 : (L * q - R = - (RtoC (dx * dx) * c * q))%C.
Proof.
  pose proof (lat_sym (p0 + shift)) as H. rewrite src1, u_p1, u_p2 in H. replace (p0 + shift - shift)%Z with p0 in H by lia. rewrite u_at0 in H.
  pose proof q_disp as D.
  transitivity ((R * q + L - RtoC (2 - beta * beta * (dx * dx)) * R) * q)%C; [| rewrite H; ring].
  transitivity (L * q - R + R * ((q * q + C1) - RtoC (2 - beta * beta * (dx * dx)) * q))%C; [rewrite D; ring | ring].
Qed.
Lemma uni_R : (R * (q * q - C1) = RtoC (dx * dx) * q * (q - c))%C.
Proof. transitivity ((R * q - L) * q + (L * q - R))%C; [ring |]. rewrite eq0, eq1. ring. Qed.
Lemma uni_L : (L * (q * q - C1) = RtoC (dx * dx) * q * (C1 - q * c))%C.
Proof. transitivity ((L * q - R) * q + (R * q - L))%C; [ring |]. rewrite eq0, eq1. ring. Qed.
Lemma sin_b : 0 < sin (b * dx).
Proof. destruct Hf as [[H1 H2] _]. apply sin_gt_0; auto. Qed.
Lemma q2_nz : (q * q - C1)%C <> C0.
Proof.
  intro E3. pose proof sin_b. pose proof (f_equal re E3) as E4. unfold q in E4. rewrite cis_opp in E4. cbn in E4.
  pose proof (sin2_cos2 (b * dx)) as S. unfold Rsqr in S. nra.
Qed.
(** Nothing leaves on the shift side exactly when the reported beta is that of the lattice. *)
Lemma uni_silent : dx <> 0 -> (R = C0 <-> q = c).
Proof.
  intro Hd. pose proof uni_R as H. split.
  - intros ->. assert (H0 : (RtoC (dx * dx) * q * (q - c))%C = C0) by (rewrite <- H; ring).
    apply Cmul_integral in H0. destruct H0 as [H0 | H0].
    + exfalso. apply Cmul_integral in H0. destruct H0 as [H0 | H0]; [revert H0; apply RtoC_neq0; apply Rmult_integral_contrapositive; auto | revert H0; apply cis_neq_0].
    + replace q with ((q - c) + c)%C by ring. rewrite H0. ring.
  - intro E. assert (H0 : (R * (q * q - C1))%C = C0) by (rewrite H, E; ring).
    apply Cmul_integral in H0. destruct H0 as [H0 | H0]; [exact H0 | exfalso; exact (q2_nz H0)].
Qed.
Lemma n2_diff : forall x y, Cn2 (cis x - cis y) = 2 - 2 * cos (x - y).
Proof.
  intros. unfold Cn2. cbn. rewrite cos_minus. pose proof (sin2_cos2 x) as S1. pose proof (sin2_cos2 y) as S2. unfold Rsqr in *. lra.
Qed.
(** The two-cell source radiates strictly more into the device (away from shift) than backwards. *)
Lemma uni_ratio : 0 < beta * dx -> beta * dx < PI -> dx <> 0 -> Cn2 R < Cn2 L.
Proof.
  intros H1 H2 Hd. pose proof sin_b as Sb. pose proof (sin_gt_0 _ H1 H2) as Sbe.
  pose proof (f_equal Cn2 uni_R) as A. pose proof (f_equal Cn2 uni_L) as B. rewrite !Cn2_mul in A, B.
  pose proof (Cn2_pos _ q2_nz) as P. rewrite Cn2_RtoC in A, B. assert (Nq : Cn2 q = 1) by apply Cn2_cis. rewrite Nq in A, B.
  assert (N1 : Cn2 (q - c) = 2 - 2 * cos (b * dx - beta * dx)).
  { unfold q, c. rewrite n2_diff. rewrite <- cos_neg. f_equal. f_equal. f_equal. ring. }
  assert (N2 : Cn2 (C1 - q * c) = 2 - 2 * cos (b * dx + beta * dx)).
  { unfold q, c. rewrite <- cis_add. rewrite <- cis_0, n2_diff. f_equal. f_equal. f_equal. ring. }
  rewrite N1 in A. rewrite N2 in B. rewrite cos_minus in A. rewrite cos_plus in B.
  assert (D1 : 0 < dx * dx) by (destruct (Rdichotomy _ _ Hd); nra). assert (D2 : 0 < dx * dx * (dx * dx)) by (apply Rmult_lt_0_compat; exact D1). set (d := dx * dx * (dx * dx)) in *. set (p := Cn2 (q * q - C1)) in *.
  assert (SS : 0 < sin (b * dx) * sin (beta * dx)) by nra.
  assert (LT : Cn2 R * p < Cn2 L * p). { rewrite A, B. pose proof (Rmult_lt_0_compat _ _ D2 SS). lra. }
  apply Rmult_lt_reg_r with p; assumption.
Qed.
End Uni.
(** The hypotheses are met: a lattice with beta dx = 1 (b dx = pi / 3). *)
Lemma free_wave_ex : free_wave 1 1 (PI / 3).
Proof. unfold free_wave. rewrite !Rmult_1_r, cos_PI3. pose proof PI_RGT_0. split; lra. Qed.

Lemma uni_exists : forall beta dx b p0, free_wave beta dx b -> exists u R L,
  lattice_wave beta dx (uni_source beta dx p0 1) u /\ outgoing_at b dx u (p0 + 1) 1 R /\ outgoing_at b dx u p0 (- (1)) L.
Proof.
  intros beta dx b p0 Hf. set (q := cis (- (b * dx))). set (c := cis (- (beta * dx))).
  pose proof (q2_nz beta dx b Hf) as N. fold q in N. pose proof (q_disp beta dx b Hf) as D. fold q in D.
  set (R := (RtoC (dx * dx) * q * (q - c) / (q * q - C1))%C). set (L := (RtoC (dx * dx) * q * (C1 - q * c) / (q * q - C1))%C).
  set (w := fun z : Z => cis (- (b * dx * IZR z))).
  assert (W1 : forall z, w (z + 1)%Z = (w z * q)%C). { intro z. unfold w, q. rewrite <- cis_add. f_equal. rewrite plus_IZR. ring. }
  assert (W0 : w 0%Z = C1). { unfold w. replace (- (b * dx * 0)) with 0 by ring. apply cis_0. }
  assert (Qn : q <> C0) by apply cis_neq_0.
  exists (fun x => if Z.ltb p0 x then (R * w (x - p0 - 1)%Z)%C else (L * w (p0 - x)%Z)%C), R, L. split; [| split].
  - intro x. cbv beta. pose proof (src0 beta dx p0 1) as S0. pose proof (src1 beta dx p0 1 (or_introl eq_refl)) as S1. fold c in S1.
    set (K := RtoC (beta * beta * (dx * dx))). assert (HK : (q * q + C1 = (RtoC 2 - K) * q)%C) by (rewrite D, RtoC_sub; reflexivity).
    destruct (Z.eq_dec x p0) as [-> | N0]; [| destruct (Z.eq_dec x (p0 + 1)) as [-> | N1]].
    + rewrite S0. destruct (Z.ltb_spec p0 (p0 + 1)); [| lia]. destruct (Z.ltb_spec p0 p0); [lia |]. destruct (Z.ltb_spec p0 (p0 - 1)); [lia |].
      replace (p0 + 1 - p0 - 1)%Z with 0%Z by lia. replace (p0 - p0)%Z with 0%Z by lia. replace (p0 - (p0 - 1))%Z with (0 + 1)%Z by lia.
      rewrite W1, W0. fold K. apply (Cmul_cancel'' q); [exact Qn |].
      transitivity (R * q - L + L * ((q * q + C1) - (RtoC 2 - K) * q))%C; [ring |]. rewrite HK. unfold R, L. field. exact N.
    + rewrite S1. destruct (Z.ltb_spec p0 (p0 + 1 + 1)); [| lia]. destruct (Z.ltb_spec p0 (p0 + 1)); [| lia]. destruct (Z.ltb_spec p0 (p0 + 1 - 1)); [lia |].
      replace (p0 + 1 + 1 - p0 - 1)%Z with (0 + 1)%Z by lia. replace (p0 + 1 - p0 - 1)%Z with 0%Z by lia. replace (p0 - (p0 + 1 - 1))%Z with 0%Z by lia.
      rewrite W1, W0. fold K. apply (Cmul_cancel'' q); [exact Qn |].
      transitivity (L * q - R + R * ((q * q + C1) - (RtoC 2 - K) * q))%C; [ring |]. rewrite HK. unfold R, L. field. exact N.
    + assert (SZ : uni_source beta dx p0 1 x = C0). { unfold uni_source. destruct (Z.eqb_spec x p0); [lia |]. destruct (Z.eqb_spec x (p0 + 1)); [lia |]. reflexivity. }
      rewrite SZ. apply (Cmul_cancel'' q); [exact Qn |]. destruct (Z.ltb_spec p0 x).
      * destruct (Z.ltb_spec p0 (x + 1)); [| lia]. destruct (Z.ltb_spec p0 (x - 1)); [| lia].
        replace (x + 1 - p0 - 1)%Z with (x - 1 - p0 - 1 + 1 + 1)%Z by lia. replace (x - p0 - 1)%Z with (x - 1 - p0 - 1 + 1)%Z by lia. rewrite !W1.
        set (y := w (x - 1 - p0 - 1)%Z). transitivity (R * y * q * ((q * q + C1) - (RtoC 2 - K) * q))%C; [ring |]. rewrite HK. ring.
      * destruct (Z.ltb_spec p0 (x + 1)); [lia |]. destruct (Z.ltb_spec p0 (x - 1)); [lia |].
        replace (p0 - (x - 1))%Z with (p0 - (x + 1) + 1 + 1)%Z by lia. replace (p0 - x)%Z with (p0 - (x + 1) + 1)%Z by lia. rewrite !W1.
        set (y := w (p0 - (x + 1))%Z). transitivity (L * y * q * ((q * q + C1) - (RtoC 2 - K) * q))%C; [ring |]. rewrite HK. ring.
  - intro n. cbv beta. destruct (Z.ltb_spec p0 (p0 + 1 + 1 * Z.of_nat n)); [| lia]. replace (p0 + 1 + 1 * Z.of_nat n - p0 - 1)%Z with (Z.of_nat n) by lia.
    unfold w. rewrite <- INR_IZR_INZ. reflexivity.
  - intro n. cbv beta. destruct (Z.ltb_spec p0 (p0 + - (1) * Z.of_nat n)); [lia |]. replace (p0 - (p0 + - (1) * Z.of_nat n))%Z with (Z.of_nat n) by lia.
    unfold w. rewrite <- INR_IZR_INZ. reflexivity.
Qed.
Lemma uni_never_silent : forall beta dx b p0 shift u R L, shift = 1%Z \/ shift = (-1)%Z -> free_wave beta dx b ->
  lattice_wave beta dx (uni_source beta dx p0 shift) u -> outgoing_at b dx u (p0 + shift) shift R -> outgoing_at b dx u p0 (- shift) L ->
  dx <> 0 -> beta <> 0 -> R <> C0.
Proof.
  intros beta dx b p0 shift u R L Hs Hf Hu HR HL Hd Hb E.
  apply (uni_silent beta dx b p0 shift u R L Hs Hf Hu HR HL Hd) in E. revert E. apply free_wave_detuned; auto.
Qed.
