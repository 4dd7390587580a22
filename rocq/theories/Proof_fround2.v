(** Proofs for C157: binary64 and binary32 arithmetic; the exact one; the bound in closed form. *)
From Coq Require Import Reals Lra Lia Psatz List ZArith Bool FunctionalExtensionality.
From Flocq Require Import Core Relative.
From Verif Require Import Cx Arr Spec_circuit Model_coupling Model_forward Spec_mesh Proof_node Proof_mesh Proof_forward Proof_lip Proof_adj Model_float Proof_float Model_fround Spec_fround Proof_fround.
Import ListNotations.
Local Open Scope R_scope.

Lemma flt_err : forall emin prec x, (0 < prec)%Z ->
  Rabs (round radix2 (FLT_exp emin prec) ZnearestE x - x) <= bpow radix2 (- prec) * Rabs x + bpow radix2 (emin - 1).
Proof.
  intros emin prec x Hp. destruct (error_N_FLT radix2 emin prec Hp (fun z => negb (Z.even z)) x) as (eps & eta & E1 & E2 & _ & E3).
  rewrite E3. replace (x * (1 + eps) + eta - x) with (eps * x + eta) by ring. eapply Rle_trans; [apply Rabs_triang |]. rewrite Rabs_mult.
  assert (H1 : / 2 * bpow radix2 (- prec + 1) = bpow radix2 (- prec)) by (rewrite bpow_plus; change (bpow radix2 1) with 2; lra).
  assert (H2 : / 2 * bpow radix2 emin = bpow radix2 (emin - 1)) by (replace (emin - 1)%Z with (emin + -1)%Z by lia; rewrite bpow_plus; change (bpow radix2 (-1)) with (/ 2); ring).
  rewrite H1 in E1. rewrite H2 in E2. apply Rplus_le_compat; [| exact E2]. apply Rmult_le_compat_r; [apply Rabs_pos | exact E1].
Qed.
Lemma b64_err : forall x, Rabs (b64 x - x) <= bpow radix2 (-53) * Rabs x + bpow radix2 (-1075).
Proof. intro x. apply (flt_err (-1074) 53 x). lia. Qed.
Lemma b32_err : forall x, Rabs (b32 x - x) <= bpow radix2 (-24) * Rabs x + bpow radix2 (-150).
Proof. intro x. apply (flt_err (-149) 24 x). lia. Qed.
(** Componentwise errors. *)
Lemma Cabs_comp : forall z A, 0 <= A -> Rabs (re z) <= A -> Rabs (im z) <= A -> Cabs z <= 1415 / 1000 * A.
Proof.
  intros z A HA H1 H2. apply Rabs_le_inv in H1, H2. unfold Cabs. rewrite <- (sqrt_square (1415 / 1000 * A)) by lra. apply sqrt_le_1_alt. unfold Cn2.
  assert (re z * re z <= A * A) by nra. assert (im z * im z <= A * A) by nra. nra.
Qed.
Lemma Cabs_comp2 : forall z w f g, 0 <= f -> 0 <= g -> Rabs (re w) <= f * Rabs (re z) + g -> Rabs (im w) <= f * Rabs (im z) + g -> Cabs w <= f * Cabs z + 1415 / 1000 * g.
Proof.
  intros z w f g Hf Hg H1 H2. pose proof (Rabs_pos (re z)) as P1. pose proof (Rabs_pos (im z)) as P2.
  assert (S1 : Cabs w <= Cabs (mkC (f * Rabs (re z)) (f * Rabs (im z)) + mkC g g)%C).
  { unfold Cabs. apply sqrt_le_1_alt. unfold Cn2. cbn [re im Cadd].
    assert (Q : forall a b, Rabs a <= b -> a * a <= b * b) by (intros a b Hab; apply Rabs_le_inv in Hab; nra). apply Q in H1, H2. lra. }
  eapply Rle_trans; [exact S1 |]. eapply Rle_trans; [apply Cabs_add |]. apply Rplus_le_compat.
  - apply Req_le. unfold Cabs, Cn2. cbn [re im].
    replace (f * Rabs (re z) * (f * Rabs (re z)) + f * Rabs (im z) * (f * Rabs (im z))) with (f * f * (re z * re z + im z * im z)).
    + rewrite sqrt_mult by nra. rewrite sqrt_square by lra. reflexivity.
    + assert (Q : forall a, Rabs a * Rabs a = a * a) by (intro a; rewrite <- Rabs_mult; apply Rabs_pos_eq; nra). pose proof (Q (re z)). pose proof (Q (im z)). nra.
  - apply Cabs_comp; cbn [re im]; rewrite ?Rabs_pos_eq; lra.
Qed.

Lemma u53 : bpow radix2 (-53) = / 2 ^ 53.
Proof. rewrite bp. p2. lra. Qed.
Lemma u24 : bpow radix2 (-24) = / 2 ^ 24.
Proof. rewrite bp. p2. lra. Qed.
Lemma tiny : forall e k, powerRZ 2 (e + Z.of_nat k) = 2 ^ k * bpow radix2 e.
Proof. intros. rewrite <- bp, bpow_plus, (bp (Z.of_nat k)), <- pow_powerRZ. ring. Qed.
(** The product, one component at a time. *)
Lemma dot_err : forall eps eta a b c d (f : R -> R), 0 <= eps <= 1 -> 0 <= eta -> (forall x, Rabs (f x - x) <= eps * Rabs x + eta) ->
  Rabs (f (f (a * b) + f (c * d)) - (a * b + c * d)) <= (2 * eps + eps * eps) * (Rabs a * Rabs b + Rabs c * Rabs d) + 5 * eta.
Proof.
  intros eps eta a b c d f Heps Heta Hf. pose proof (Hf (a * b)) as A. pose proof (Hf (c * d)) as B. set (p := f (a * b)) in *. set (q := f (c * d)) in *.
  pose proof (Hf (p + q)) as C. set (X := Rabs a * Rabs b + Rabs c * Rabs d). rewrite Rabs_mult in A, B.
  assert (S : Rabs (p + q - (a * b + c * d)) <= eps * X + 2 * eta).
  { replace (p + q - (a * b + c * d)) with ((p - a * b) + (q - c * d)) by ring. eapply Rle_trans; [apply Rabs_triang |]. unfold X. lra. }
  assert (T : Rabs (a * b + c * d) <= X) by (eapply Rle_trans; [apply Rabs_triang |]; rewrite !Rabs_mult; unfold X; lra).
  assert (U : Rabs (p + q) <= (1 + eps) * X + 2 * eta).
  { replace (p + q) with ((p + q - (a * b + c * d)) + (a * b + c * d)) by ring. eapply Rle_trans; [apply Rabs_triang |]. lra. }
  replace (f (p + q) - (a * b + c * d)) with ((f (p + q) - (p + q)) + (p + q - (a * b + c * d))) by ring. eapply Rle_trans; [apply Rabs_triang |].
  assert (eps * Rabs (p + q) <= eps * ((1 + eps) * X + 2 * eta)) by (apply Rmult_le_compat_l; lra). nra.
Qed.
Lemma cs2 : forall a b c d, Rabs a * Rabs b + Rabs c * Rabs d <= sqrt (a * a + c * c) * sqrt (b * b + d * d).
Proof.
  intros. rewrite <- sqrt_mult by nra. rewrite <- (sqrt_square (Rabs a * Rabs b + Rabs c * Rabs d)).
  - apply sqrt_le_1_alt. assert (Q : forall a, Rabs a * Rabs a = a * a) by (intro x; rewrite <- Rabs_mult; apply Rabs_pos_eq; nra).
    rewrite <- (Q a), <- (Q b), <- (Q c), <- (Q d). pose proof (Rle_0_sqr (Rabs a * Rabs d - Rabs c * Rabs b)) as H. unfold Rsqr in H. nra.
  - pose proof (Rabs_pos a). pose proof (Rabs_pos b). pose proof (Rabs_pos c). pose proof (Rabs_pos d). nra.
Qed.
Lemma mul64 : forall z w, Cabs (amul b64_arith z w - z * w)%C <= 3 / 2 ^ 53 * (Cabs z * Cabs w) + powerRZ 2 (-1072).
Proof.
  intros z w. set (eps := / 2 ^ 53). assert (Heps : 0 <= eps <= 1) by (unfold eps; lra).
  set (eta := bpow radix2 (-1075)). assert (Heta : 0 <= eta) by apply bpow_ge_0.
  assert (HE : forall x, Rabs (b64 x - x) <= eps * Rabs x + eta) by (intro x; unfold eps; rewrite <- u53; apply b64_err).
  assert (Hopp : forall x, b64 (- x) = - b64 x) by (intro x; apply round_NE_opp).
  set (W := Cabs z * Cabs w). assert (HW : 0 <= W) by (apply Rmult_le_pos; apply Cabs_nonneg).
  eapply Rle_trans; [apply (Cabs_comp _ ((2 * eps + eps * eps) * W + 5 * eta)) |].
  - nra.
  - cbn [amul b64_arith re im Csub Cadd Copp Cmul].
    pose proof (dot_err eps eta (re z) (re w) (- im z) (im w) b64 Heps Heta HE) as D. rewrite <- Ropp_mult_distr_l, Hopp, Rabs_Ropp in D.
    match goal with |- Rabs ?x <= _ => match type of D with Rabs ?y <= _ => replace x with y by (unfold Rminus; ring) end end.
    eapply Rle_trans; [exact D |]. apply Rplus_le_compat_r, Rmult_le_compat_l; [nra |]. apply cs2.
  - cbn [amul b64_arith re im Csub Cadd Copp Cmul].
    pose proof (dot_err eps eta (re z) (im w) (im z) (re w) b64 Heps Heta HE) as D.
    match goal with |- Rabs ?x <= _ => match type of D with Rabs ?y <= _ => replace x with y by (unfold Rminus; ring) end end.
    eapply Rle_trans; [exact D |]. apply Rplus_le_compat_r, Rmult_le_compat_l; [nra |]. eapply Rle_trans; [apply cs2 |].
    apply Req_le. unfold W, Cabs, Cn2. rewrite (Rplus_comm (im w * im w)). reflexivity.
  - change (-1072)%Z with (-1075 + Z.of_nat 3)%Z. rewrite tiny. fold eta. unfold Rdiv. fold eps. cbn [pow].
    assert (eps * eps <= eps * (1 / 100)) by (apply Rmult_le_compat_l; [lra |]; unfold eps; lra). nra.
Qed.
Lemma add64 : forall z w, Cabs (aadd b64_arith z w - (z + w))%C <= / 2 ^ 53 * Cabs (z + w)%C + powerRZ 2 (-1074).
Proof.
  intros z w. eapply Rle_trans; [apply (Cabs_comp2 (z + w)%C _ (/ 2 ^ 53) (bpow radix2 (-1075))) |].
  - lra.
  - apply bpow_ge_0.
  - cbn [aadd b64_arith re im Csub Cadd Copp]. rewrite <- u53. apply b64_err.
  - cbn [aadd b64_arith re im Csub Cadd Copp]. rewrite <- u53. apply b64_err.
  - apply Rplus_le_compat_l. change (-1074)%Z with (-1075 + Z.of_nat 1)%Z. rewrite tiny. pose proof (bpow_ge_0 radix2 (-1075)). cbn [pow]. lra.
Qed.
Lemma store32 : forall z, Cabs (astore b64_b32_arith z - z)%C <= / 2 ^ 24 * Cabs z + powerRZ 2 (-149).
Proof.
  intros z. eapply Rle_trans; [apply (Cabs_comp2 z _ (/ 2 ^ 24) (bpow radix2 (-150))) |].
  - lra.
  - apply bpow_ge_0.
  - cbn [astore b64_b32_arith re im Csub Cadd Copp]. rewrite <- u24. apply b32_err.
  - cbn [astore b64_b32_arith re im Csub Cadd Copp]. rewrite <- u24. apply b32_err.
  - apply Rplus_le_compat_l. change (-149)%Z with (-150 + Z.of_nat 1)%Z. rewrite tiny. pose proof (bpow_ge_0 radix2 (-150)). cbn [pow]. lra.
Qed.
Lemma ok64 : arith_ok (3 / 2 ^ 53) (powerRZ 2 (-1072)) b64_arith.
Proof.
  assert (P : 0 <= powerRZ 2 (-1072)) by (apply powerRZ_le; lra). split; [lra |]. split; [exact P |]. split; [exact mul64 |]. split.
  - intros z w. eapply Rle_trans; [apply add64 |]. pose proof (Cabs_nonneg (z + w)%C).
    assert (powerRZ 2 (-1074) <= powerRZ 2 (-1072)) by (rewrite <- !bp; apply bpow_le; lia). assert (/ 2 ^ 53 <= 3 / 2 ^ 53) by lra. nra.
  - intro z. cbn [astore b64_arith]. replace (z - z)%C with C0 by ring. rewrite Cabs_C0. pose proof (Cabs_nonneg z). nra.
Qed.
Lemma ok32 : arith_ok (/ 2 ^ 24) (powerRZ 2 (-149)) b64_b32_arith.
Proof.
  assert (P : 0 <= powerRZ 2 (-149)) by (apply powerRZ_le; lra). destruct ok64 as (_ & _ & M & A & _).
  assert (U : powerRZ 2 (-1072) <= powerRZ 2 (-149)) by (rewrite <- !bp; apply bpow_le; lia). assert (D : 3 / 2 ^ 53 <= / 2 ^ 24) by lra.
  split; [lra |]. split; [exact P |]. split; [| split; [| exact store32]].
  - intros z w. change (amul b64_b32_arith) with (amul b64_arith). eapply Rle_trans; [apply M |]. apply Rplus_le_compat; [| exact U].
    apply Rmult_le_compat_r; [apply Rmult_le_pos; apply Cabs_nonneg | exact D].
  - intros z w. change (aadd b64_b32_arith) with (aadd b64_arith). eapply Rle_trans; [apply A |]. apply Rplus_le_compat; [| exact U].
    apply Rmult_le_compat_r; [apply Cabs_nonneg | exact D].
Qed.
Lemma exact_ok : arith_ok 0 0 exact_arith.
Proof.
  split; [lra |]. split; [lra |]. split; [| split]; intros; cbn [amul aadd astore exact_arith];
    match goal with |- Cabs ?t <= _ => replace t with C0 by ring end; rewrite Cabs_C0; lra.
Qed.
(** With exact arithmetic and exact elements this is matrix_fn. *)
Lemma exact_same : forall m back p x,
  matrix_fn_fl exact_arith m back (fun k => parallel_mzi (style m) back (thetas p k) (phis p k) (err_at m k) (loss_at m k)) (fun i => cis (gammas p i)) x = matrix_fn m back p x.
Proof. reflexivity. Qed.
(** ** The closed form *)
Lemma pow_lin : forall x L, 0 <= x -> 2 * INR L * x <= 1 -> (1 + x) ^ L <= 1 + 2 * INR L * x.
Proof.
  intros x L Hx. induction L as [| L IH]; intro H; [cbn; lra |]. rewrite S_INR in *. cbn [pow]. pose proof (pos_INR L) as P.
  assert (H' : 2 * INR L * x <= 1) by nra. specialize (IH H'). assert ((1 + x) * (1 + x) ^ L <= (1 + x) * (1 + 2 * INR L * x)) by (apply Rmult_le_compat_l; lra). nra.
Qed.
Lemma mesh_round : forall a d u e m back p el' eg x y y', arith_ok d u a -> 0 <= e -> wf_mesh m -> attenuating m ->
  (forall nd, In nd (nodes m) -> near_quad e (el' (node_id nd)) (parallel_mzi (style m) back (thetas p (node_id nd)) (phis p (node_id nd)) (err_at m (node_id nd)) (loss_at m (node_id nd)))) ->
  (forall i, (i < n_rails m)%nat -> Cabs (eg i - cis (gammas p i))%C <= e) ->
  matrix_fn m back p x = Some y -> matrix_fn_fl a m back el' eg x = Some y' ->
  let K := (1 + e) * (1 + d) ^ 3 - 1 in let L := INR (Datatypes.S (Z.to_nat (num_columns m))) in
  4 * K * L <= 1 ->
  sqrt (power (n_rails m) (fun i => y' i - y i)%C) <= 4 * K * L * sqrt (power (n_rails m) x) + 2 * L * (2 * (1 + d) ^ 2 + (1 + d) + 1) * u * sqrt (INR (n_rails m)).
Proof.
  intros a d u e m back p el' eg x y y' Ha He Hwf Hatt Hn Hg Hy Hy' K L HL.
  pose proof (mesh_err a d u e Ha He m back p el' eg x y y' Hwf Hatt Hn Hg Hy Hy') as M. cbv zeta in M. fold K in M.
  set (N := Datatypes.S (Z.to_nat (num_columns m))) in *. assert (KP : 0 <= K) by exact (K_pos a d u e Ha He).
  assert (EP : 0 <= (2 * (1 + d) ^ 2 + (1 + d) + 1) * u) by exact (E_pos a d u Ha).
  assert (P : (1 + 2 * K) ^ N <= 1 + 2 * INR N * (2 * K)) by (apply pow_lin; [lra |]; fold L; nra).
  fold L in P. fold L in M. fold (nrm (n_rails m) x). fold (nrm (n_rails m) (fun i => y' i - y i)%C). eapply Rle_trans; [exact M |].
  pose proof (nrm_pos (n_rails m) x) as NX. assert (LP : 0 <= L) by apply pos_INR. pose proof (sqrt_pos (INR (n_rails m))) as SP.
  set (E := (2 * (1 + d) ^ 2 + (1 + d) + 1) * u) in *. set (q := (1 + 2 * K) ^ N) in *. set (s := sqrt (INR (n_rails m))) in *.
  assert (q <= 2) by lra. replace (2 * L * (2 * (1 + d) ^ 2 + (1 + d) + 1) * u * s) with (2 * (L * (s * E))) by (unfold E; ring).
  assert (Z1 : 0 <= L * (s * E)) by (apply Rmult_le_pos; [| apply Rmult_le_pos]; assumption). apply Rplus_le_compat.
  - apply Rmult_le_compat_r; [exact NX | lra].
  - replace (L * q * (s * E)) with (q * (L * (s * E))) by ring. apply Rmult_le_compat_r; assumption.
Qed.
