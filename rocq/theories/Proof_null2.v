(** Nullification fails for DIFFERENTIAL nodes and for unequal splitter errors. *)
From Coq Require Import Reals Lra Lia Psatz List ZArith Bool FunctionalExtensionality.
From Verif Require Import Cx Arr Spec_circuit Model_coupling Model_forward Proof_node Proof_mesh Proof_forward2 Proof_forward3 Proof_forward4 Proof_null.
Import ListNotations.
Local Open Scope R_scope.

Lemma spacing_small : 0 < np_spacing1 < 1 / 1000.
Proof.
  unfold np_spacing1. assert (H : 1000 < 2 ^ 52) by lra.
  split; [apply Rinv_0_lt_compat; lra |]. unfold Rdiv. rewrite Rmult_1_l. apply Rinv_lt_contravar; lra.
Qed.

Lemma sqrt2_inv : (1 / sqrt 2) * (1 / sqrt 2) = 1 / 2.
Proof.
  replace (1 / sqrt 2 * (1 / sqrt 2)) with (1 / (sqrt 2 * sqrt 2)) by (field; apply Rgt_not_eq, sqrt_lt_R0; lra).
  rewrite sqrt_sqrt by lra. lra.
Qed.

Lemma terms0 : mzi_terms (0, 0) = (1/2, 1/2, 1/2, 1/2).
Proof. unfold mzi_terms. cbn [fst snd]. rewrite Rplus_0_r, sin_PI4, cos_PI4, sqrt2_inv. reflexivity. Qed.

(** A polar decomposition determines the phase factor. *)
Lemma Carg_Ci : Carg Ci = PI / 2.
Proof.
  pose proof (Carg_polar Ci) as H. pose proof (Carg_bound Ci) as B.
  assert (E : Cabs Ci = 1) by (unfold Cabs; rewrite Cn2_Ci; apply sqrt_1). rewrite E in H.
  assert (Ec : cos (Carg Ci) = 0) by (apply (f_equal re) in H; simpl in H; lra).
  assert (Es : sin (Carg Ci) = 1) by (apply (f_equal im) in H; simpl in H; lra).
  destruct (Rlt_le_dec (Carg Ci) 0).
  - assert (sin (Carg Ci) <= 0).
    { rewrite <- (Ropp_involutive (Carg Ci)), sin_neg. pose proof (sin_ge_0 (- Carg Ci)). lra. }
    lra.
  - destruct (Rtotal_order (Carg Ci) (PI/2)) as [H1 | [H1 | H1]]; auto.
    + assert (0 < cos (Carg Ci)) by (apply cos_gt_0; pose proof PI_RGT_0; lra). lra.
    + assert (cos (Carg Ci) < 0) by (apply cos_lt_0; pose proof PI_RGT_0; lra). lra.
Qed.
Lemma Carg_pos_real : forall x, 0 < x -> Carg (RtoC x) = 0.
Proof.
  intros x Hx. pose proof (Carg_polar (RtoC x)) as H. pose proof (Carg_bound (RtoC x)) as B.
  rewrite Cabs_RtoC in H by lra.
  assert (Ec : cos (Carg (RtoC x)) = 1) by (apply (f_equal re) in H; simpl in H; nra).
  assert (Es : sin (Carg (RtoC x)) = 0) by (apply (f_equal im) in H; simpl in H; nra).
  destruct (Rtotal_order (Carg (RtoC x)) 0) as [H1 | [H1 | H1]]; auto.
  - assert (0 < sin (- Carg (RtoC x))) by (apply sin_gt_0; lra). rewrite sin_neg in H0. lra.
  - destruct (Req_dec (Carg (RtoC x)) PI) as [E | E].
    + rewrite E, cos_PI in Ec. lra.
    + assert (0 < sin (Carg (RtoC x))) by (apply sin_gt_0; lra). lra.
Qed.

Lemma differential_not_null : exists t b phi,
  let theta := nullify_theta np_spacing1 (mzi_terms (0, 0)) t b in
  nullify_phi DIFFERENTIAL (mzi_terms (0, 0)) theta t b = Some phi /\
  1 <= Cn2 (qtop (parallel_mzi DIFFERENTIAL false theta (mod2pi phi) (0, 0) (0, 0)) t b).
Proof.
  pose proof spacing_small as Heps. set (eps := np_spacing1) in *.
  exists Ci, C1. set (theta := nullify_theta eps (mzi_terms (0,0)) Ci C1).
  set (N := (Ci * (RtoC (1/2) + cis (- theta) * RtoC (1/2)))%C).
  set (N2 := (RtoC (- (1/2)) + RtoC (1/2) * cis (- theta))%C).
  exists (Carg C1 - Carg Ci + (Carg N2 - Carg N)). cbv zeta. fold theta. split.
  { unfold nullify_phi. rewrite terms0. reflexivity. }
  set (phi := Carg C1 - Carg Ci + (Carg N2 - Carg N)).
  assert (Es : direct_transmissivity_eps eps Ci C1 = 1 / (2 + eps)).
  { unfold direct_transmissivity_eps. rewrite Cn2_Ci, Cn2_C1. f_equal; ring. }
  assert (He0 : - (PI/4) < 0 < PI/4) by (pose proof PI_RGT_0; lra).
  assert (Hs1 : 0 < 1 / (2 + eps) < 1).
  { split; [apply Rdiv_lt_0_compat; lra |]. apply (Rmult_lt_reg_r (2 + eps)); [lra |].
    unfold Rdiv. rewrite Rmult_assoc, Rinv_l by lra. lra. }
  assert (Ecs : cos (PI/4 + 0) * sin (PI/4 + 0) = 1/2) by (rewrite Rplus_0_r, sin_PI4, cos_PI4; apply sqrt2_inv).
  assert (Ecc : cos (PI/4 + 0) * cos (PI/4 + 0) = 1/2) by (rewrite Rplus_0_r, cos_PI4; apply sqrt2_inv).
  assert (Ess : sin (PI/4 + 0) * sin (PI/4 + 0) = 1/2) by (rewrite Rplus_0_r, sin_PI4; apply sqrt2_inv).
  assert (HN : Cn2 N = 1 / (2 + eps)).
  { pose proof (N_power eps 0 Ci C1 (Rlt_le _ _ (proj1 Heps)) He0) as H. cbv zeta in H.
    rewrite Es, Ecs in H. apply H. lra. }
  assert (HN2 : Cn2 N2 = 1 - 1 / (2 + eps)).
  { pose proof (N2_power eps 0 Ci C1 (Rlt_le _ _ (proj1 Heps)) He0) as H. cbv zeta in H.
    rewrite Es, Ecs, Ecc, Ess in H. apply H. lra. }
  set (x := Cabs N2). set (y := Cabs N).
  assert (Hx : 0 < x) by (apply Cabs_pos; intro E; rewrite E, Cn2_C0 in HN2; lra).
  assert (Hy : 0 < y) by (apply Cabs_pos; intro E; rewrite E, Cn2_C0 in HN; lra).
  set (c2 := cis (Carg N2)). set (c := cis (Carg N)).
  assert (Ec2 : N2 = (RtoC x * c2)%C) by apply Carg_polar.
  assert (Ec : N = (RtoC y * c)%C) by apply Carg_polar.
  (* theta in [0, pi], so N2 * conj N is a nonpositive real *)
  assert (Hth : 0 <= theta <= PI).
  { unfold theta, nullify_theta. rewrite terms0. unfold transmissivity_to_phase. apply acos_bound. }
  assert (Hprod : (c2 * Cconj c)%C = (- C1)%C).
  { assert (E1 : (N2 * Cconj N)%C = RtoC (- (sin theta / 2))).
    { unfold N, N2. apply C_eq; simpl; rewrite cos_neg, sin_neg; [field |].
      transitivity (((1/4) * (1 - (cos theta * cos theta + sin theta * sin theta)))); [field | rewrite cossin2; ring]. }
    assert (E2 : (RtoC (x * y) * (c2 * Cconj c))%C = RtoC (- (sin theta / 2))).
    { rewrite <- E1, Ec2, Ec, Cconj_mul, Cconj_RtoC, RtoC_mul. ring. }
    set (z := (c2 * Cconj c)%C) in *.
    assert (Hz : Cn2 z = 1) by (unfold z; rewrite Cn2_mul, Cn2_conj; unfold c2, c; rewrite !Cn2_cis; ring).
    assert (Hsin : 0 <= sin theta) by (apply sin_ge_0; lra).
    assert (Hxy : 0 < x * y) by nra.
    clearbody z. clear - E2 Hz Hsin Hxy.
    pose proof (f_equal re E2) as R1. pose proof (f_equal im E2) as R2. simpl in R1, R2.
    assert (H : im z = 0).
    { assert (Hm : x * y * im z = 0) by lra. apply Rmult_integral in Hm. destruct Hm; [lra | auto]. }
    assert (re z <= 0) by nra. unfold Cn2 in Hz.
    rewrite H in Hz. assert (re z = -1) by nra. apply C_eq; cbn [re im Copp C1]; lra. }
  assert (Ecc2 : c2 = (- c)%C).
  { transitivity (c2 * Cconj c * c)%C.
    - transitivity (c2 * (Cconj c * c))%C; [unfold c; rewrite cis_conj_l; ring | ring].
    - rewrite Hprod. ring. }
  (* the output *)
  set (ph := mod2pi phi).
  assert (Ephi : cis ph = cis phi).
  { unfold ph, mod2pi. replace (phi - 2 * PI * IZR (Int_part (phi / (2 * PI)))) with
      (phi + 2 * PI * IZR (- Int_part (phi / (2 * PI)))) by (rewrite opp_IZR; ring). apply cis_period. }
  assert (Ephi2 : cis ph = (- Ci * c2 * Cconj c)%C).
  { rewrite Ephi. unfold phi. rewrite Carg_Ci. change C1 with (RtoC 1). rewrite Carg_pos_real by lra.
    replace (0 - PI / 2 + (Carg N2 - Carg N)) with (- (PI/2) + Carg N2 + - Carg N) by ring.
    rewrite !cis_add, !cis_opp, cis_PI2, Cconj_Ci. fold c c2. ring. }
  rewrite Hprod in Ephi2 || idtac.
  assert (Ephi3 : cis ph = Ci) by (rewrite Ephi2; replace (- Ci * c2 * Cconj c)%C with (- Ci * (c2 * Cconj c))%C by ring; rewrite Hprod; ring).
  unfold qtop, parallel_mzi. rewrite terms0. cbn [t11 t21 b2R fst snd].
  replace (ln 10 * 0 / 20) with 0 by field. rewrite !Cexp_imag.
  replace ((- ph - theta) / 2 + ph * 0) with ((ph - theta) / 2 + - ph) by field.
  replace ((ph - theta) / 2 - ph * 0) with ((ph - theta) / 2) by field.
  rewrite cis_add, cis_opp, Ephi3, Cconj_Ci.
  assert (EA : (RtoC (- (1/2)) + RtoC (1/2) * cis theta)%C = Cconj N2).
  { unfold N2. rewrite Cconj_add, Cconj_mul, !Cconj_RtoC, cis_opp, Cconj_conj. ring. }
  assert (EB : (Ci * (RtoC (1/2) + RtoC (1/2) * cis theta))%C = (- Cconj N)%C).
  { unfold N. rewrite Cconj_mul, Cconj_add, Cconj_mul, !Cconj_RtoC, cis_opp, Cconj_conj, Cconj_Ci. ring. }
  rewrite EA, EB.
  apply Rle_trans with (Cn2 (RtoC (x + y) * (cis ((ph - theta) / 2) * Cconj c))%C).
  - rewrite !Cn2_mul, Cn2_cis, Cn2_conj. unfold c at 1. rewrite Cn2_cis, Cn2_RtoC.
    assert (x ^ 2 = Cn2 N2) by apply Cn2_Cabs. assert (y ^ 2 = Cn2 N) by apply Cn2_Cabs. nra.
  - right. rewrite Ec2, Ec, !Cconj_mul, !Cconj_RtoC, Ecc2, Cconj_opp, RtoC_add.
    rewrite <- Cn2_opp. f_equal. ring [Ci_sq].
Qed.

(** Unequal errors (0, pi/12), both couplers still far from fully crossed; the split ratio 1/2 is reachable. *)
Lemma unequal_not_null : exists t b phi,
  let err := (0, PI / 12) in let '(cc, cs, sc, ss) := mzi_terms err in
  let theta := nullify_theta np_spacing1 (mzi_terms err) t b in
  (cs - sc) ^ 2 <= direct_transmissivity t b <= (cs + sc) ^ 2 /\
  nullify_phi TOP (mzi_terms err) theta t b = Some phi /\
  1 / 20 <= Cn2 (qtop (parallel_mzi TOP false theta (mod2pi phi) err (0, 0)) t b).
Proof.
  pose proof spacing_small as Heps. unfold direct_transmissivity. set (eps := np_spacing1) in *.
  set (r := sqrt (1 + eps)).
  assert (Hr : r * r = 1 + eps) by (apply sqrt_sqrt; lra).
  assert (Hr1 : 1 <= r) by (rewrite <- sqrt_1; apply sqrt_le_1; lra).
  set (a := 1 / sqrt 2). assert (Ha : a * a = 1/2) by apply sqrt2_inv.
  assert (Ha0 : 0 < a) by (apply Rdiv_lt_0_compat; [lra | apply sqrt_lt_R0; lra]).
  set (q := sqrt 3 / 2). assert (Hq : q * q = 3/4).
  { unfold q. replace (sqrt 3 / 2 * (sqrt 3 / 2)) with (sqrt 3 * sqrt 3 / 4) by field. rewrite sqrt_sqrt by lra. lra. }
  assert (Hq0 : 0 < q) by (apply Rdiv_lt_0_compat; [apply sqrt_lt_R0; lra | lra]).
  assert (Et : mzi_terms (0, PI/12) = (1/2 * a, 1/2 * a, q * a, q * a)).
  { unfold mzi_terms. cbn [fst snd]. rewrite Rplus_0_r. replace (PI / 4 + PI / 12) with (PI / 3) by field.
    rewrite cos_PI3, sin_PI3, cos_PI4, sin_PI4. reflexivity. }
  exists (RtoC r), C1. rewrite Et. cbv beta iota zeta.
  assert (Es : direct_transmissivity_eps eps (RtoC r) C1 = 1/2).
  { unfold direct_transmissivity_eps. rewrite Cn2_RtoC, Cn2_C1, Hr. field. lra. }
  assert (Eth : nullify_theta eps (1/2 * a, 1/2 * a, q * a, q * a) (RtoC r) C1 = PI / 2).
  { unfold nullify_theta. rewrite Es. unfold transmissivity_to_phase.
    replace ((1/2 - (1/2 * a) ^ 2 - (q * a) ^ 2) / (2 * (1/2 * a) * (q * a))) with 0.
    - rewrite Rmax_left, Rmin_left by lra. apply acos_0.
    - replace (1/2 - (1/2 * a) ^ 2 - (q * a) ^ 2) with (1/2 - (1/4 + q * q) * (a * a)) by field.
      rewrite Ha, Hq. replace (1/2 - (1/4 + 3/4) * (1/2)) with 0 by field. unfold Rdiv. ring. }
  rewrite Eth, Es.
  set (N := (Ci * (RtoC (1/2 * a) + cis (- (PI/2)) * RtoC (q * a)))%C).
  set (N2 := (RtoC (- (q * a)) + RtoC (1/2 * a) * cis (- (PI/2)))%C).
  exists (Carg C1 - Carg (RtoC r) + (Carg N2 - Carg N)).
  split; [split; nra |]. split; [reflexivity |].
  set (phi := Carg C1 - Carg (RtoC r) + (Carg N2 - Carg N)).
  assert (Ephi : cis (mod2pi phi) = (cis (Carg N2) * Cconj (cis (Carg N)))%C).
  { unfold mod2pi. replace (phi - 2 * PI * IZR (Int_part (phi / (2 * PI)))) with
      (phi + 2 * PI * IZR (- Int_part (phi / (2 * PI)))) by (rewrite opp_IZR; ring). rewrite cis_period.
    unfold phi. rewrite Carg_pos_real by lra. change C1 with (RtoC 1). rewrite Carg_pos_real by lra.
    replace (0 - 0 + (Carg N2 - Carg N)) with (Carg N2 - Carg N) by ring. apply cis_sub. }
  unfold qtop, parallel_mzi. rewrite Et. cbn [t11 t21 b2R fst snd].
  replace (ln 10 * 0 / 20) with 0 by field. rewrite !Rmult_0_r, !Cexp_imag, cis_0, cis_PI2, Ephi.
  assert (EN : N = mkC (q * a) (1/2 * a)).
  { unfold N. rewrite cis_opp, cis_PI2, Cconj_Ci. apply C_eq; simpl; ring. }
  assert (EN2 : N2 = mkC (- (q * a)) (- (1/2 * a))).
  { unfold N2. rewrite cis_opp, cis_PI2, Cconj_Ci. apply C_eq; simpl; ring. }
  assert (HN : Cn2 N = 1/2) by (rewrite EN; unfold Cn2; simpl; nra).
  assert (HN2 : Cn2 N2 = 1/2) by (rewrite EN2; unfold Cn2; simpl; nra).
  set (c2 := cis (Carg N2)) in *. set (c := cis (Carg N)) in *.
  assert (Ex : Cabs N2 = Cabs N) by (unfold Cabs; congruence).
  assert (EA : (RtoC (- (q * a)) + RtoC (1/2 * a) * Ci)%C = (RtoC (Cabs N2) * Cconj c2)%C).
  { unfold c2. rewrite <- Cconj_polar. rewrite EN2. apply C_eq; simpl; ring. }
  rewrite EA.
  replace (RtoC (Cabs N2) * Cconj c2 * (c2 * Cconj c) * RtoC r + Ci * (RtoC (q * a) + RtoC (1/2 * a) * Ci) * C1 * C1)%C
    with (RtoC (Cabs N2) * (Cconj c2 * c2) * Cconj c * RtoC r + Ci * (RtoC (q * a) + RtoC (1/2 * a) * Ci))%C by ring.
  unfold c2 at 1 2. rewrite cis_conj_l.
  replace (RtoC (Cabs N2) * C1 * Cconj c * RtoC r)%C with (RtoC r * Cconj N)%C.
  2: { rewrite (Cconj_polar N), Ex. fold c. ring. }
  rewrite EN.
  set (Z := (RtoC r * Cconj (mkC (q * a) (1/2 * a)) + Ci * (RtoC (q * a) + RtoC (1/2 * a) * Ci))%C).
  assert (Hq1 : 85/100 <= q) by nra.
  assert (Ha1 : 7/10 <= a) by nra.
  assert (EZ : re Z = r * (q * a) - 1/2 * a) by (unfold Z; simpl; field).
  assert (Hqa : 0 <= q * a) by nra.
  assert (H1 : q * a <= r * (q * a)) by nra.
  assert (H2 : 24/100 <= re Z) by (rewrite EZ; nra).
  unfold Cn2. nra.
Qed.
Lemma symmetric_raises : forall terms theta t b, nullify_phi SYMMETRIC terms theta t b = None.
Proof. intros [[[cc cs] sc] ss] theta t b. reflexivity. Qed.
Lemma reach0 : (2 * (cos (PI/4 + 0) * sin (PI/4 + 0))) ^ 2 = 1.
Proof. rewrite Rplus_0_r, cos_PI4, sin_PI4, sqrt2_inv. field. Qed.
Lemma dt_le1 : forall eps t b, 0 <= eps -> 0 <= direct_transmissivity_eps eps t b <= 1.
Proof.
  intros eps t b He. unfold direct_transmissivity_eps. pose proof (Cn2_nonneg t). pose proof (Cn2_nonneg b).
  destruct (Req_EM_T (Cn2 t + Cn2 b + eps) 0) as [E | E].
  - assert (Cn2 t = 0) by lra. rewrite H1. unfold Rdiv. rewrite Rmult_0_l. lra.
  - assert (0 < Cn2 t + Cn2 b + eps) by lra. split.
    + apply Rmult_le_pos; [lra | left; apply Rinv_0_lt_compat; lra].
    + apply Rmult_le_reg_r with (Cn2 t + Cn2 b + eps); auto. unfold Rdiv. rewrite Rmult_assoc, Rinv_l; lra.
Qed.
Lemma reachable0 : forall eps, 0 <= eps -> forall t b,
  direct_transmissivity_eps eps t b <= (2 * (cos (PI/4 + 0) * sin (PI/4 + 0))) ^ 2.
Proof. intros. rewrite reach0. apply dt_le1; auto. Qed.
Lemma ttp_ideal : forall s st back phi, 0 <= s <= 1 ->
  Cn2 (t12 (parallel_mzi st back (transmissivity_to_phase s None) phi (0, 0) (0, 0))) = s.
Proof.
  intros s st back phi Hs. rewrite ttp_none, <- terms0. pose proof PI_RGT_0.
  pose proof (ttp_mzi_exact s st back phi (0, 0) ltac:(simpl; lra) ltac:(simpl; lra)) as H1.
  rewrite terms0 in *. apply H1. lra.
Qed.
