(** One MZI: split ratio and nullification (C20, C21). *)
From Coq Require Import Reals Lra Lia Psatz List ZArith Bool FunctionalExtensionality.
From Verif Require Import Cx Arr Spec_circuit Model_coupling Model_forward Proof_node Proof_mesh Proof_forward2 Proof_forward3 Proof_forward4.
Import ListNotations.
Local Open Scope R_scope.

Lemma PI4_bounds : forall e, - (PI/4) < e < PI/4 -> 0 < cos (PI/4 + e) /\ 0 < sin (PI/4 + e).
Proof. intros e H. pose proof PI_RGT_0. split; [apply cos_gt_0 | apply sin_gt_0]; lra. Qed.

Lemma cross2 : forall a b t, Cn2 (Ci * (RtoC a + RtoC b * cis t))%C = a ^ 2 + b ^ 2 + 2 * a * b * cos t.
Proof.
  intros. rewrite Cn2_mul, Cn2_Ci. unfold Cn2; simpl.
  transitivity (a * a + 2 * a * b * cos t + b * b * (cos t * cos t + sin t * sin t)); [ring | rewrite cossin2; ring].
Qed.

(** Power fraction as a function of theta, and the clamp. *)
Lemma ttp_split : forall s cc cs sc ss, 0 < cs -> 0 < sc ->
  let theta := transmissivity_to_phase s (Some (cc, cs, sc, ss)) in
  cs ^ 2 + sc ^ 2 + 2 * cs * sc * cos theta = Rmin (Rmax s ((cs - sc) ^ 2)) ((cs + sc) ^ 2) /\ 0 <= theta <= PI.
Proof.
  intros s cc cs sc ss Hc Hs. cbv zeta beta iota delta [transmissivity_to_phase].
  set (x := (s - cs ^ 2 - sc ^ 2) / (2 * cs * sc)).
  assert (Hd : 0 < 2 * cs * sc) by nra.
  assert (Hb : -1 <= Rmin (Rmax x (-1)) 1 <= 1).
  { split; [apply Rmin_glb; [apply Rmax_r | lra] | apply Rmin_r]. }
  rewrite cos_acos by lra. split; [| apply acos_bound].
  assert (Hx : 2 * cs * sc * x = s - cs ^ 2 - sc ^ 2) by (unfold x; field; split; lra).
  unfold Rmin, Rmax.
  destruct (Rle_dec x (-1)) as [H1 | H1].
  - destruct (Rle_dec (-1) 1) as [_ | H]; [| lra].
    destruct (Rle_dec s ((cs - sc) ^ 2)) as [H2 | H2]; [| exfalso; nra].
    destruct (Rle_dec ((cs - sc) ^ 2) ((cs + sc) ^ 2)) as [H3 | H3]; [| exfalso; nra]. ring.
  - destruct (Rle_dec s ((cs - sc) ^ 2)) as [H2 | H2].
    + exfalso. nra.
    + destruct (Rle_dec x 1) as [H3 | H3]; destruct (Rle_dec s ((cs + sc) ^ 2)) as [H4 | H4].
      * nra.
      * exfalso; nra.
      * assert (x = 1) by nra. subst x. nra.
      * ring.
Qed.

Lemma ttp_none : forall s, transmissivity_to_phase s None = transmissivity_to_phase s (Some (1/2, 1/2, 1/2, 1/2)).
Proof. reflexivity. Qed.

(** The cross power of the MZI elements, every style, lossless. *)
Lemma mzi_cross_power : forall st back theta phi err,
  Cn2 (t12 (parallel_mzi st back theta phi err (0, 0))) =
  (cos (PI/4 + snd err) * sin (PI/4 + fst err)) ^ 2 + (sin (PI/4 + snd err) * cos (PI/4 + fst err)) ^ 2
  + 2 * (cos (PI/4 + snd err) * sin (PI/4 + fst err)) * (sin (PI/4 + snd err) * cos (PI/4 + fst err)) * cos theta.
Proof.
  intros st back theta phi err. unfold parallel_mzi, mzi_terms. cbn [fst snd].
  replace (ln 10 * 0 / 20) with 0 by field. rewrite ?Rmult_0_l, !Cexp_imag.
  destruct st; cbn [t12]; rewrite Cn2_mul, ?Cexp_imag, Cn2_cis, Rmult_1_r.
  - apply cross2.
  - replace (RtoC (cos (PI / 4 + snd err) * sin (PI / 4 + fst err)) * cis theta +
       RtoC (sin (PI / 4 + snd err) * cos (PI / 4 + fst err)))%C with
      (RtoC (sin (PI / 4 + snd err) * cos (PI / 4 + fst err)) + RtoC (cos (PI / 4 + snd err) * sin (PI / 4 + fst err)) * cis theta)%C by ring.
    rewrite cross2. ring.
  - apply cross2.
  - apply cross2.
Qed.

Lemma ttp_mzi : forall s st back phi err, - (PI/4) < fst err < PI/4 -> - (PI/4) < snd err < PI/4 ->
  let '(cc, cs, sc, ss) := mzi_terms err in
  let theta := transmissivity_to_phase s (Some (mzi_terms err)) in
  Cn2 (t12 (parallel_mzi st back theta phi err (0, 0))) = Rmin (Rmax s ((cs - sc) ^ 2)) ((cs + sc) ^ 2).
Proof.
  intros s st back phi err H1 H2. destruct (PI4_bounds _ H1) as [Ha Hb]. destruct (PI4_bounds _ H2) as [Hc Hd].
  unfold mzi_terms. cbv zeta. rewrite mzi_cross_power.
  apply (proj1 (ttp_split s (cos (PI / 4 + snd err) * cos (PI / 4 + fst err)) _ _ (sin (PI / 4 + snd err) * sin (PI / 4 + fst err))
    (Rmult_lt_0_compat _ _ Hc Hb) (Rmult_lt_0_compat _ _ Hd Ha))).
Qed.

(** With reachable s: exactly s. *)
Lemma ttp_mzi_exact : forall s st back phi err, - (PI/4) < fst err < PI/4 -> - (PI/4) < snd err < PI/4 ->
  let '(cc, cs, sc, ss) := mzi_terms err in
  (cs - sc) ^ 2 <= s <= (cs + sc) ^ 2 ->
  Cn2 (t12 (parallel_mzi st back (transmissivity_to_phase s (Some (mzi_terms err))) phi err (0, 0))) = s.
Proof.
  intros s st back phi err H1 H2. pose proof (ttp_mzi s st back phi err H1 H2) as H.
  unfold mzi_terms in *. cbv zeta in *. intros [Hl Hu]. rewrite H.
  rewrite Rmax_left by auto. apply Rmin_left; auto.
Qed.

(** ** Nullification *)
Lemma Cn2_Cabs : forall z, Cabs z ^ 2 = Cn2 z.
Proof. intros. rewrite <- Cabs_sq. ring. Qed.

Section null.
Variables (eps e : R) (t b : C).
Hypothesis Heps : 0 <= eps.
Hypothesis He : - (PI/4) < e < PI/4.
Let s := direct_transmissivity_eps eps t b.
Let cs := cos (PI/4 + e) * sin (PI/4 + e).
Let cc := cos (PI/4 + e) * cos (PI/4 + e).
Let ss := sin (PI/4 + e) * sin (PI/4 + e).
Hypothesis Hreach : s <= (2 * cs) ^ 2.
Let theta := nullify_theta eps (mzi_terms (e, e)) t b.
Let N := (Ci * (RtoC cs + cis (- theta) * RtoC cs))%C.
Let N2 := (RtoC (- ss) + RtoC cc * cis (- theta))%C.

Lemma s_bounds : 0 <= s <= 1.
Proof.
  unfold s, direct_transmissivity_eps. pose proof (Cn2_nonneg t). pose proof (Cn2_nonneg b).
  destruct (Req_dec (Cn2 t + Cn2 b + eps) 0) as [E | E].
  - assert (Cn2 t = 0) by lra. rewrite H1. unfold Rdiv. rewrite Rmult_0_l. lra.
  - assert (0 < Cn2 t + Cn2 b + eps) by lra. split.
    + apply Rmult_le_pos; [lra | left; apply Rinv_0_lt_compat; lra].
    + apply (Rmult_le_reg_r (Cn2 t + Cn2 b + eps)); auto. unfold Rdiv. rewrite Rmult_assoc, Rinv_l by auto. lra.
Qed.

Lemma N_power : Cn2 N = s.
Proof.
  destruct (PI4_bounds _ He) as [Ha Hb].
  assert (Hcs : 0 < cs) by (unfold cs; nra).
  unfold N. replace (cis (- theta) * RtoC cs)%C with (RtoC cs * cis (- theta))%C by ring.
  rewrite cross2, cos_neg.
  pose proof (proj1 (ttp_split s cc cs cs ss Hcs Hcs)) as H. cbv zeta in H.
  assert (Et : theta = transmissivity_to_phase s (Some (cc, cs, cs, ss))).
  { unfold theta, nullify_theta, mzi_terms. cbn [fst snd]. unfold s, cc, cs, ss. f_equal. f_equal. f_equal.
    f_equal. ring. }
  rewrite <- Et in H. rewrite H. rewrite Rmax_left; [rewrite Rmin_left; auto |].
  - eapply Rle_trans; [exact Hreach | right; ring].
  - pose proof s_bounds. replace ((cs - cs) ^ 2) with 0 by ring. lra.
Qed.

Lemma N2_power : Cn2 N2 = 1 - s.
Proof.
  rewrite <- N_power. unfold N, N2.
  replace (cis (- theta) * RtoC cs)%C with (RtoC cs * cis (- theta))%C by ring.
  rewrite cross2. unfold Cn2; simpl. rewrite cos_neg, sin_neg.
  transitivity (ss * ss - 2 * ss * cc * cos theta + cc * cc * (cos theta * cos theta + sin theta * sin theta)); [ring |].
  rewrite cossin2. unfold ss, cc, cs. pose proof (cossin2 (PI/4 + e)) as H.
  set (a := cos (PI/4 + e)) in *. set (d := sin (PI/4 + e)) in *.
  assert (E : (a * a + d * d) * (a * a + d * d) = 1) by (rewrite H; ring). 
  transitivity ((a * a + d * d) * (a * a + d * d) - 2 * (a * d * (a * d)) - 2 * (a * d * (a * d)) * cos theta); [ring |].
  rewrite E. ring.
Qed.

Lemma mod_bound : (Cabs N2 * Cabs t - Cabs N * Cabs b) ^ 2 <= eps.
Proof.
  set (x := Cabs N2 * Cabs t). set (y := Cabs N * Cabs b).
  assert (Hx : 0 <= x) by (apply Rmult_le_pos; apply Cabs_nonneg).
  assert (Hy : 0 <= y) by (apply Rmult_le_pos; apply Cabs_nonneg).
  assert (Ex : x ^ 2 = (1 - s) * Cn2 t) by (unfold x; rewrite Rpow_mult_distr, !Cn2_Cabs, N2_power; auto).
  assert (Ey : y ^ 2 = s * Cn2 b) by (unfold y; rewrite Rpow_mult_distr, !Cn2_Cabs, N_power; auto).
  assert (Hd : 0 <= x ^ 2 - y ^ 2 <= eps).
  { rewrite Ex, Ey. unfold s, direct_transmissivity_eps.
    pose proof (Cn2_nonneg t). pose proof (Cn2_nonneg b).
    destruct (Req_dec (Cn2 t + Cn2 b + eps) 0) as [E | E].
    - assert (E1 : Cn2 t = 0) by lra. rewrite E1. unfold Rdiv. rewrite !Rmult_0_l, Rmult_0_r. lra.
    - replace ((1 - Cn2 t / (Cn2 t + Cn2 b + eps)) * Cn2 t - Cn2 t / (Cn2 t + Cn2 b + eps) * Cn2 b)
        with (eps * (Cn2 t / (Cn2 t + Cn2 b + eps))) by (field; auto).
      pose proof s_bounds as Hs. unfold s, direct_transmissivity_eps in Hs. nra. }
  assert (y <= x) by nra. nra.
Qed.

Lemma null_top : forall phi, nullify_phi TOP (mzi_terms (e, e)) theta t b = Some phi ->
  Cn2 (qtop (parallel_mzi TOP false theta (mod2pi phi) (e, e) (0, 0)) t b) <= eps.
Proof.
  intros phi Hphi.
  assert (Ec : cis (mod2pi phi) = cis phi).
  { unfold mod2pi. replace (phi - 2 * PI * IZR (Int_part (phi / (2 * PI)))) with
      (phi + 2 * PI * IZR (- Int_part (phi / (2 * PI)))) by (rewrite opp_IZR; ring). apply cis_period. }
  unfold nullify_phi, mzi_terms in Hphi. cbn [fst snd] in Hphi. apply Some_inj in Hphi.
  fold cc ss in Hphi. replace (sin (PI / 4 + e) * cos (PI / 4 + e)) with cs in Hphi by (unfold cs; ring).
  change (cos (PI / 4 + e) * sin (PI / 4 + e)) with cs in Hphi. fold N N2 in Hphi.
  unfold qtop, parallel_mzi, mzi_terms. cbn [fst snd t11 t21 b2R]. fold cc ss cs.
  replace (sin (PI / 4 + e) * cos (PI / 4 + e)) with cs by (unfold cs; ring).
  replace (ln 10 * 0 / 20) with 0 by field. rewrite !Rmult_0_r, !Cexp_imag, cis_0, Ec.
  (* A = conj N2, B = - conj N *)
  assert (EA : (RtoC (- ss) + RtoC cc * cis theta)%C = (RtoC (Cabs N2) * cis (- Carg N2))%C).
  { transitivity (Cconj N2).
    - unfold N2. rewrite Cconj_add, Cconj_mul, !Cconj_RtoC, cis_opp, Cconj_conj. ring.
    - rewrite cis_opp. apply Cconj_polar. }
  assert (EB : (Ci * (RtoC cs + RtoC cs * cis theta))%C = (- (RtoC (Cabs N) * cis (- Carg N)))%C).
  { transitivity (- Cconj N)%C.
    - unfold N. rewrite Cconj_mul, Cconj_add, Cconj_mul, !Cconj_RtoC, cis_opp, Cconj_conj, Cconj_Ci. ring.
    - rewrite cis_opp. f_equal. apply Cconj_polar. }
  rewrite EA, EB, <- Hphi.
  apply Rle_trans with (Cn2 (RtoC (Cabs N2 * Cabs t - Cabs N * Cabs b) * (cis (Carg b) * cis (- Carg N)))%C).
  - right. f_equal.
    replace (Carg b - Carg t + (Carg N2 - Carg N)) with (Carg b + - Carg t + Carg N2 + - Carg N) by ring.
    rewrite !cis_add, RtoC_sub, !RtoC_mul.
    transitivity (RtoC (Cabs N2) * (cis (- Carg N2) * cis (Carg N2)) * cis (Carg b) * cis (- Carg N) * (t * cis (- Carg t))
       - RtoC (Cabs N) * cis (- Carg N) * b)%C; [ring |].
    rewrite Carg_unphase, cis_opp, cis_conj_l. rewrite (Carg_polar b) at 2. ring.
  - rewrite !Cn2_mul, !Cn2_cis, Cn2_RtoC. pose proof mod_bound as Hm. lra.
Qed.

Lemma null_bottom : forall phi, nullify_phi BOTTOM (mzi_terms (e, e)) theta t b = Some phi ->
  Cn2 (qtop (parallel_mzi BOTTOM false theta (mod2pi phi) (e, e) (0, 0)) t b) <= eps.
Proof.
  intros phi Hphi.
  assert (Ec : cis (mod2pi phi) = cis phi).
  { unfold mod2pi. replace (phi - 2 * PI * IZR (Int_part (phi / (2 * PI)))) with
      (phi + 2 * PI * IZR (- Int_part (phi / (2 * PI)))) by (rewrite opp_IZR; ring). apply cis_period. }
  unfold nullify_phi, mzi_terms in Hphi. cbn [fst snd] in Hphi. apply Some_inj in Hphi.
  fold cc ss in Hphi. replace (sin (PI / 4 + e) * cos (PI / 4 + e)) with cs in Hphi by (unfold cs; ring).
  change (cos (PI / 4 + e) * sin (PI / 4 + e)) with cs in Hphi. fold N N2 in Hphi.
  unfold qtop, parallel_mzi, mzi_terms. cbn [fst snd t11 t21 b2R]. fold cc ss cs.
  replace (sin (PI / 4 + e) * cos (PI / 4 + e)) with cs by (unfold cs; ring).
  replace (ln 10 * 0 / 20) with 0 by field. rewrite !Rminus_0_r, !Rmult_1_r, !Cexp_imag, Ec.
  assert (E1 : (cis theta * cis (- theta))%C = C1) by (rewrite cis_opp; apply cis_conj_r).
  assert (EA : (RtoC (- ss) * cis theta + RtoC cc)%C = (cis theta * (RtoC (Cabs N2) * cis (Carg N2)))%C).
  { rewrite <- Carg_polar. unfold N2.
    transitivity (RtoC (- ss) * cis theta + RtoC cc * (cis theta * cis (- theta)))%C; [rewrite E1; ring | ring]. }
  assert (EB : (Ci * (RtoC cs * cis theta + RtoC cs))%C = (cis theta * (RtoC (Cabs N) * cis (Carg N)))%C).
  { rewrite <- Carg_polar. unfold N.
    transitivity (Ci * (RtoC cs * cis theta + RtoC cs * (cis theta * cis (- theta))))%C; [rewrite E1; ring | ring]. }
  rewrite EA, EB, <- Hphi.
  apply Rle_trans with (Cn2 (RtoC (Cabs N2 * Cabs t - Cabs N * Cabs b) * (cis theta * cis (Carg t) * cis (Carg N2)))%C).
  - right. f_equal.
    replace (Carg t - Carg b + PI + (Carg N2 - Carg N)) with (Carg t + - Carg b + PI + Carg N2 + - Carg N) by ring.
    rewrite !cis_add, cis_PI, RtoC_sub, !RtoC_mul.
    transitivity (cis theta * RtoC (Cabs N2) * cis (Carg N2) * t
       - cis theta * RtoC (Cabs N) * (cis (- Carg N) * cis (Carg N)) * cis (Carg t) * cis (Carg N2) * (b * cis (- Carg b)))%C; [ring |].
    rewrite Carg_unphase, cis_opp, cis_conj_l. rewrite (Carg_polar t) at 1. ring.
  - rewrite !Cn2_mul, !Cn2_cis, Cn2_RtoC. pose proof mod_bound as Hm. lra.
Qed.
End null.
