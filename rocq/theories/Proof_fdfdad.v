(** Proofs for C169: adjoint sensitivities of the frequency-domain solver. *)
From Coq Require Import Reals List Arith ZArith Lra Lia Bool.
From Verif Require Import Cx Arr Model_coupling Model_yee Spec_yee Proof_yee Proof_yee2 Proof_yee3 Model_fdfd Spec_fdfd Proof_fdfd Proof_fdfd2 Proof_fdfd3 Proof_fdfd4
  Spec_fdtd Proof_energy Proof_absorb Proof_adj Model_fdfdc Spec_fdfdc Proof_fdfdc Proof_fdfdc2 Proof_fdfdc3 Proof_fdfdsy Spec_fdfdst Proof_fdfdst Proof_fdfdst2 Spec_fdfdad.
Local Open Scope R_scope.

(** ** Exact change of an overlap. *)
Lemma recip3_wave : forall d j1 j2 e1 e2, cf_bloch d = (fun _ => C1) -> cf_k0 d <> 0 -> nz_pixel (cf_shape d) (cf_dxf d) -> nz_pixel (cf_shape d) (cf_dxb d) ->
  wave3 d j1 e1 -> wave3 d j2 e2 ->
  wvpair (cf_shape d) (vol_e (cf_dxf d) (cf_dxb d)) e1 j2 = wvpair (cf_shape d) (vol_e (cf_dxf d) (cf_dxb d)) e2 j1.
Proof.
  intros d j1 j2 e1 e2 Hb Hk Hf Hbb H1' H2'. pose proof (proj1 (wave3_fn d Hb _ _) H1') as H1. pose proof (proj1 (wave3_fn d Hb _ _) H2') as H2.
  set (W := vol_e (cf_dxf d) (cf_dxb d)). set (s := cf_shape d) in *.
  apply (Cmul_cancel (RtoC (cf_k0 d))); [apply k0_nz; exact Hk |].
  rewrite (wvpair_sym s W e1 j2), (wvpair_sym s W e2 j1), <- !wvpair_scal.
  rewrite (wvpair_ext s W (fun a i j k => RtoC (cf_k0 d) * j2 a i j k)%C e1 (fun c i j k => cop3 d e2 c i j k - RtoC (cf_k0 d * cf_k0 d) * cf_eps_t d c i j k * e2 c i j k)%C e1)
    by (intros; auto; rewrite H2 by auto; ring).
  rewrite (wvpair_ext s W (fun a i j k => RtoC (cf_k0 d) * j1 a i j k)%C e2 (fun c i j k => cop3 d e1 c i j k - RtoC (cf_k0 d * cf_k0 d) * cf_eps_t d c i j k * e1 c i j k)%C e2)
    by (intros; auto; rewrite H1 by auto; ring).
  rewrite (wvpair_sub s W (cop3 d e2) (fun c i j k => RtoC (cf_k0 d * cf_k0 d) * cf_eps_t d c i j k * e2 c i j k)%C).
  rewrite (wvpair_sub s W (cop3 d e1) (fun c i j k => RtoC (cf_k0 d * cf_k0 d) * cf_eps_t d c i j k * e1 c i j k)%C).
  pose proof (cop3_sym d Hf Hbb e1 e2) as Q. fold s W in Q. rewrite Q.
  f_equal. unfold wvpair, wpair. f_equal; [f_equal |]; apply grid_sum_ext; intros; ring.
Qed.
Lemma change3 : forall d eps' solver solver' solver2 j1 j2, cf_bloch d = (fun _ => C1) -> cf_k0 d <> 0 -> nz_pixel (cf_shape d) (cf_dxf d) -> nz_pixel (cf_shape d) (cf_dxb d) ->
  exact3c d solver j1 -> exact3c (with_eps d eps') solver' j1 -> exact3c d solver2 j2 ->
  let V := vol_e (cf_dxf d) (cf_dxb d) in let e1 := fst (solve3c d solver j1) in let e1' := fst (solve3c (with_eps d eps') solver' j1) in let e2 := fst (solve3c d solver2 j2) in
  (wvpair (cf_shape d) V e1' j2 - wvpair (cf_shape d) V e1 j2)%C =
  (RtoC (cf_k0 d) * wvpair (cf_shape d) V (fun c i j k => (eps_at (cf_shape d) eps' c i j k - eps_at (cf_shape d) (cf_eps d) c i j k) * e1' c i j k) e2)%C.
Proof.
  intros d eps' solver solver' solver2 j1 j2 Hb Hk Hf Hbb H1 H1' H2 V e1 e1' e2.
  assert (W1 : wave3 d j1 e1) by (apply exact3c_wave; exact H1). assert (W2 : wave3 d j2 e2) by (apply exact3c_wave; exact H2).
  assert (W0 : wave3 (with_eps d eps') j1 e1') by (apply exact3c_wave; exact H1'). pose proof (eps3_wave d eps' j1 e1' W0) as W1'.
  rewrite (recip3_wave d _ _ _ _ Hb Hk Hf Hbb W1 W2 : wvpair (cf_shape d) V e1 j2 = _), (recip3_wave d _ _ _ _ Hb Hk Hf Hbb W1' W2 : wvpair (cf_shape d) V e1' j2 = _). fold V.
  rewrite <- wvpair_scal. rewrite !(wvpair_sym _ V e2). rewrite <- wvpair_sub.
  unfold wvpair, wpair. f_equal; [f_equal |]; apply grid_sum_ext; intros; unfold plus_eps; ring.
Qed.
Lemma change_te_wave : forall d eps' j1 j2 e1 e1' e2, cf_bloch d = (fun _ => C1) -> cf_k0 d <> 0 -> nz_pixel (cf_shape d) (cf_dxf d) -> nz_pixel (cf_shape d) (cf_dxb d) ->
  wave_te d j1 e1 -> wave_te (with_eps d eps') j1 e1' -> wave_te d j2 e2 -> let A := area (cf_dxb d) in
  (wpair (cf_shape d) A e1' j2 - wpair (cf_shape d) A e1 j2)%C =
  (RtoC (cf_k0 d) * wpair (cf_shape d) A (fun i j k => (eps_at (cf_shape d) eps' AZ i j k - eps_at (cf_shape d) (cf_eps d) AZ i j k) * e1' i j k) e2)%C.
Proof.
  intros d eps' j1 j2 e1 e1' e2 Hb Hk Hf Hbb W1 W0 W2 A. pose proof (eps_te_wave d eps' j1 e1' W0) as W1'.
  pose proof (proj1 (wave_te_fn d Hb _ _) W1) as F1. pose proof (proj1 (wave_te_fn d Hb _ _) W1') as F1'. pose proof (proj1 (wave_te_fn d Hb _ _) W2) as F2.
  assert (R1 : wpair (cf_shape d) A e1 j2 = wpair (cf_shape d) A e2 j1) by (eapply recip2; [exact Hk | exact Hf | exact Hbb | exact F1 | exact F2]).
  assert (R2 := recip2 d _ _ _ _ _ _ _ Hk Hf Hbb F1' F2). fold A in R2.
  rewrite R1, R2, <- wpair_scal. rewrite !(wpair_sym _ A e2). rewrite <- wpair_sub.
  unfold wpair. apply grid_sum_ext; intros; unfold plus_eps; ring.
Qed.
Lemma change_te : forall d eps' solver solver' solver2 j1 j2, cf_bloch d = (fun _ => C1) -> cf_k0 d <> 0 -> nz_pixel (cf_shape d) (cf_dxf d) -> nz_pixel (cf_shape d) (cf_dxb d) ->
  exact2c d (mat_ez_c d) solver j1 -> exact2c (with_eps d eps') (mat_ez_c (with_eps d eps')) solver' j1 -> exact2c d (mat_ez_c d) solver2 j2 ->
  let A := area (cf_dxb d) in let e1 := fst (solve2_te_c d solver j1) AZ in let e1' := fst (solve2_te_c (with_eps d eps') solver' j1) AZ in let e2 := fst (solve2_te_c d solver2 j2) AZ in
  (wpair (cf_shape d) A e1' j2 - wpair (cf_shape d) A e1 j2)%C =
  (RtoC (cf_k0 d) * wpair (cf_shape d) A (fun i j k => (eps_at (cf_shape d) eps' AZ i j k - eps_at (cf_shape d) (cf_eps d) AZ i j k) * e1' i j k) e2)%C.
Proof.
  intros d eps' solver solver' solver2 j1 j2 Hb Hk Hf Hbb H1 H1' H2 A e1 e1' e2.
  apply (change_te_wave d eps' j1 j2); auto; [apply exact_te_wave; exact H1 | apply exact_te_wave; exact H1' | apply exact_te_wave; exact H2].
Qed.
Lemma change_tm : forall d eps' solver solver' solver2 j1 j2, cf_bloch d = (fun _ => C1) -> cf_k0 d <> 0 -> nz_pixel (cf_shape d) (cf_dxf d) -> nz_pixel (cf_shape d) (cf_dxb d) ->
  exact2c d (mat_hz_c d) solver j1 -> exact2c (with_eps d eps') (mat_hz_c (with_eps d eps')) solver' j1 -> exact2c d (mat_hz_c d) solver2 j2 ->
  let s := cf_shape d in let A := area (cf_dxb d) in
  let h1 := snd (solve2_tm_c d solver j1) AZ in let h1' := snd (solve2_tm_c (with_eps d eps') solver' j1) AZ in let h2 := snd (solve2_tm_c d solver2 j2) AZ in
  let inv eps c i j k := (C1 / eps_at s eps c i j k)%C in
  (RtoC (cf_k0 d) * (wpair s A h1' j2 - wpair s A h1 j2))%C =
  (wpair s (fun i j k => cf_dxf d AX i * cf_dxb d AY j) (fun i j k => (inv (cf_eps d) AY i j k - inv eps' AY i j k) * dplus d h1' AX i j k) (dplus d h2 AX) +
   wpair s (fun i j k => cf_dxf d AY j * cf_dxb d AX i) (fun i j k => (inv (cf_eps d) AX i j k - inv eps' AX i j k) * dplus d h1' AY i j k) (dplus d h2 AY))%C.
Proof.
  intros d eps' solver solver' solver2 j1 j2 Hb Hk Hf Hbb H1 H1' H2 s A h1 h1' h2 inv.
  assert (R := recip_tm d solver solver2 j1 j2 Hb Hk Hf Hbb H1 H2). fold s A h1 h2 in R. rewrite R. clear R.
  assert (W' : wave_tm (with_eps d eps') j1 h1') by (apply exact_tm_wave; exact H1'). assert (W2 : wave_tm d j2 h2) by (apply exact_tm_wave; exact H2).
  pose proof (proj1 (wave_tm_fn (with_eps d eps') Hb _ _) W') as F1. pose proof (proj1 (wave_tm_fn d Hb _ _) W2) as F2.
  pose proof (cop2_form d Hf Hbb (fun i j k => C1 / cf_eps_t (with_eps d eps') AY i j k)%C (fun i j k => C1 / cf_eps_t (with_eps d eps') AX i j k)%C h1' h2) as Q1.
  pose proof (cop2_form d Hf Hbb (fun i j k => C1 / cf_eps_t d AY i j k)%C (fun i j k => C1 / cf_eps_t d AX i j k)%C h2 h1') as Q2.
  fold s A in Q1, Q2, F1, F2.
  assert (P1 : wpair s A (cop2 d (fun i j k => C1 / cf_eps_t (with_eps d eps') AY i j k)%C (fun i j k => C1 / cf_eps_t (with_eps d eps') AX i j k)%C h1') h2 =
    (wpair s A (fun i j k => RtoC (cf_k0 d * cf_k0 d) * h1' i j k) h2 + wpair s A (fun i j k => RtoC (cf_k0 d) * j1 i j k) h2)%C).
  { unfold wpair. rewrite <- grid_sum_add. apply grid_sum_ext; intros i j k Hg. assert (F : cop2 d (fun i j k => C1 / cf_eps_t (with_eps d eps') AY i j k)%C (fun i j k => C1 / cf_eps_t (with_eps d eps') AX i j k)%C h1' i j k =
      (RtoC (cf_k0 d * cf_k0 d) * h1' i j k + RtoC (cf_k0 d) * j1 i j k)%C) by exact (F1 i j k Hg). rewrite F. ring. }
  assert (P2 : wpair s A (cop2 d (fun i j k => C1 / cf_eps_t d AY i j k)%C (fun i j k => C1 / cf_eps_t d AX i j k)%C h2) h1' =
    (wpair s A (fun i j k => RtoC (cf_k0 d * cf_k0 d) * h1' i j k) h2 + wpair s A (fun i j k => RtoC (cf_k0 d) * j2 i j k) h1')%C).
  { unfold wpair. rewrite <- grid_sum_add. apply grid_sum_ext; intros i j k Hg. rewrite (F2 i j k Hg). ring. }
  rewrite P1 in Q1. rewrite P2 in Q2. rewrite (wpair_scal s A (RtoC (cf_k0 d))) in Q1, Q2.
  transitivity ((wpair s A (fun i j k => RtoC (cf_k0 d * cf_k0 d) * h1' i j k) h2 + RtoC (cf_k0 d) * wpair s A j2 h1') -
    (wpair s A (fun i j k => RtoC (cf_k0 d * cf_k0 d) * h1' i j k) h2 + RtoC (cf_k0 d) * wpair s A j1 h2))%C.
  { rewrite (wpair_sym s A h1' j2), (wpair_sym s A h2 j1). ring. }
  rewrite Q1, Q2. unfold wpair.
  match goal with |- ((?a + ?b) - (?a' + ?b') = ?x + ?y)%C => transitivity ((a - a') + (b - b'))%C; [ring |] end.
  rewrite <- !grid_sum_sub.
  f_equal; apply grid_sum_ext; intros i j k Hg; unfold inv; rewrite !dplus_fn by auto; unfold cf_eps_t;
    cbn [with_eps cf_shape cf_eps]; rewrite !eps_at_ok by auto; fold s; ring.
Qed.

(** ** Moving the averaging onto the fields. *)
Lemma grid_sum_succ : forall s a F, grid_sum s F = grid_sum s (fun i j k => match a with
  AX => F (succ_p (s AX) i) j k | AY => F i (succ_p (s AY) j) k | AZ => F i j (succ_p (s AZ) k) end).
Proof.
  intros s a F. rewrite <- (grid_sum_nxt s a F). apply grid_sum_ext. intros i j k (Hi & Hj & Hk). unfold roll_m1, along, succ_p. destruct a; rewrite nxt_lt by auto; reflexivity.
Qed.
Lemma pair_move : forall s a eps p, grid_sum s (fun i j k => match a with AX => eps (pred_p (s AX) i) j k | AY => eps i (pred_p (s AY) j) k | AZ => eps i j (pred_p (s AZ) k) end * p i j k)%C =
  grid_sum s (fun i j k => eps i j k * match a with AX => p (succ_p (s AX) i) j k | AY => p i (succ_p (s AY) j) k | AZ => p i j (succ_p (s AZ) k) end)%C.
Proof.
  intros s a eps p. rewrite (grid_sum_succ s a). apply grid_sum_ext. intros i j k (Hi & Hj & Hk). destruct a; rewrite pred_succ by auto; reflexivity.
Qed.
Lemma half_scal : forall s F G, grid_sum s (fun i j k => (F i j k + G i j k) / RtoC 2)%C = (RtoC (1/2) * (grid_sum s F + grid_sum s G))%C.
Proof.
  intros. rewrite <- grid_sum_add, <- grid_sum_scal. apply grid_sum_ext; intros. apply C_eq; unfold Cdiv, Cinv, Cn2; cbn [re im RtoC Cmul Cadd]; field.
Qed.
Lemma move_x : forall s eps p, grid_sum s (fun i j k => eps_at s eps AX i j k * p i j k)%C = grid_sum s (fun i j k => eps i j k * ((p i j k + p i (succ_p (s AY) j) k) / RtoC 2))%C.
Proof.
  intros s eps p. rewrite (grid_sum_ext s _ (fun i j k => (eps i j k * p i j k + eps i (pred_p (s AY) j) k * p i j k) / RtoC 2)%C) by (intros; unfold eps_at, Cdiv; ring).
  rewrite half_scal, (pair_move s AY). rewrite <- half_scal. apply grid_sum_ext; intros. unfold Cdiv; ring.
Qed.
Lemma move_y : forall s eps p, grid_sum s (fun i j k => eps_at s eps AY i j k * p i j k)%C = grid_sum s (fun i j k => eps i j k * ((p i j k + p (succ_p (s AX) i) j k) / RtoC 2))%C.
Proof.
  intros s eps p. rewrite (grid_sum_ext s _ (fun i j k => (eps i j k * p i j k + eps (pred_p (s AX) i) j k * p i j k) / RtoC 2)%C) by (intros; unfold eps_at, Cdiv; ring).
  rewrite half_scal, (pair_move s AX). rewrite <- half_scal. apply grid_sum_ext; intros. unfold Cdiv; ring.
Qed.
Lemma move_z : forall s eps p, grid_sum s (fun i j k => eps_at s eps AZ i j k * p i j k)%C = grid_sum s (fun i j k => eps i j k * sens_z s p i j k)%C.
Proof.
  intros s eps p. rewrite (grid_sum_ext s _ (fun i j k => eps_at s (eps_at s eps AY) AX i j k * p i j k)%C).
  2:{ intros. unfold eps_at. apply C_eq; unfold Cdiv, Cinv, Cn2; cbn [re im RtoC Cmul Cadd]; field. }
  rewrite move_x, move_y. apply grid_sum_ext; intros. unfold sens_z. apply C_eq; unfold Cdiv, Cinv, Cn2; cbn [re im RtoC Cmul Cadd]; field.
Qed.
Lemma eps_at_sub : forall s eps eps' c i j k, (eps_at s eps' c i j k - eps_at s eps c i j k)%C = eps_at s (fsub eps' eps) c i j k.
Proof. intros. unfold eps_at, fsub, Cdiv. destruct c; ring. Qed.
Lemma move_v : forall s eps eps' e1 e2, vpair s (fun c i j k => (eps_at s eps' c i j k - eps_at s eps c i j k) * e1 c i j k)%C e2 = pair s (fsub eps' eps) (sens_v s (vmul e1 e2)).
Proof.
  intros. unfold vpair, pair, sens_v.
  rewrite (grid_sum_ext s _ (fun i j k => eps_at s (fsub eps' eps) AX i j k * vmul e1 e2 AX i j k)%C) by (intros; rewrite <- eps_at_sub; unfold vmul, fmul; ring).
  rewrite (grid_sum_ext s (fun i j k => (eps_at s eps' AY i j k - eps_at s eps AY i j k) * e1 AY i j k * e2 AY i j k)%C (fun i j k => eps_at s (fsub eps' eps) AY i j k * vmul e1 e2 AY i j k)%C) by (intros; rewrite <- eps_at_sub; unfold vmul, fmul; ring).
  rewrite (grid_sum_ext s (fun i j k => (eps_at s eps' AZ i j k - eps_at s eps AZ i j k) * e1 AZ i j k * e2 AZ i j k)%C (fun i j k => eps_at s (fsub eps' eps) AZ i j k * vmul e1 e2 AZ i j k)%C) by (intros; rewrite <- eps_at_sub; unfold vmul, fmul; ring).
  rewrite move_x, move_y, move_z, <- !grid_sum_add. apply grid_sum_ext; intros. ring.
Qed.
Lemma move_te : forall s eps eps' e1 e2, pair s (fun i j k => (eps_at s eps' AZ i j k - eps_at s eps AZ i j k) * e1 i j k)%C e2 = pair s (fsub eps' eps) (sens_z s (fmul e1 e2)).
Proof.
  intros. unfold pair.
  rewrite (grid_sum_ext s _ (fun i j k => eps_at s (fsub eps' eps) AZ i j k * fmul e1 e2 i j k)%C) by (intros; rewrite <- eps_at_sub; unfold fmul; ring).
  rewrite move_z. reflexivity.
Qed.
(** ** Cauchy-Schwarz without conjugation. *)
Lemma vpair_CS : forall s f g, Cabs (vpair s f g) <= vnorm2 s f * vnorm2 s g.
Proof.
  intros s f g. set (z := vpair s f g). rewrite !vnorm2_nrm.
  set (u := fun c i j k => (Cconj z * f c i j k)%C). set (v := fun c i j k => Cconj (g c i j k)).
  assert (E : rin s u v = Cabs z * Cabs z).
  { unfold rin. transitivity (re (Cconj z * z)%C).
    - f_equal. transitivity (Cconj z * pair s (f AX) (g AX) + Cconj z * pair s (f AY) (g AY) + Cconj z * pair s (f AZ) (g AZ))%C; [| generalize (Cconj z); intros X; unfold z, vpair; ring].
      unfold vinner, pair, inner. rewrite <- !grid_sum_scal.
      f_equal; [f_equal |]; apply grid_sum_ext; intros; unfold u, v; rewrite Cconj_conj; ring.
    - rewrite Cabs_sq. unfold Cn2. cbn [re im Cmul Cconj]. ring. }
  pose proof (rin_CS s u v) as K. rewrite E in K.
  assert (U : rin s u u = Cabs z * Cabs z * rin s f f).
  { rewrite <- !vpower2_rin. rewrite Cabs_sq. unfold vpower2, sum3, power2. rewrite !Rmult_plus_distr_l, <- !rgrid_sum_scal.
    f_equal; [f_equal |]; apply rgrid_sum_ext; intros; unfold u, Cn2; cbn [re im Cmul Cconj]; ring. }
  assert (V : rin s v v = rin s g g).
  { rewrite <- !vpower2_rin. unfold vpower2, sum3, power2. f_equal; [f_equal |]; apply rgrid_sum_ext; intros; unfold v, Cn2; cbn [re im Cconj]; ring. }
  rewrite U, V in K. pose proof (Cabs_nonneg z) as Hz. pose proof (nrm_pos s f) as Pf. pose proof (nrm_pos s g) as Pg.
  pose proof (nrm_sq s f) as Sf. pose proof (nrm_sq s g) as Sg. rewrite <- Sf, <- Sg in K.
  destruct (Req_dec (Cabs z) 0) as [Z0 | Z0]; [rewrite Z0; apply Rmult_le_pos; auto |].
  assert (Hz' : 0 < Cabs z * Cabs z) by (apply Rmult_lt_0_compat; lra).
  apply sq_le_le; [apply Rmult_le_pos; auto |].
  apply (Rmult_le_reg_l (Cabs z * Cabs z)); [exact Hz' |]. lra.
Qed.
Lemma pair_CS : forall s f g, Cabs (pair s f g) <= norm2 s f * norm2 s g.
Proof.
  intros s f g. rewrite !norm2_z. eapply Rle_trans; [| apply vpair_CS]. right. f_equal. unfold vpair, pair.
  change (only_z f AZ) with f. change (only_z g AZ) with g.
  assert (Z : forall c, c <> AZ -> grid_sum s (fun i j k => only_z f c i j k * only_z g c i j k)%C = C0).
  { intros c Hc. transitivity (grid_sum s (fun i j k => C0 * C0)%C); [apply grid_sum_ext; intros; destruct c; [cbn [only_z]; ring | cbn [only_z]; ring | congruence] | rewrite grid_sum_scal; ring]. }
  rewrite !Z by discriminate. ring.
Qed.

(** ** Uniform pixels: constant weights. *)
Lemma wvpair_plain : forall s h f g, wvpair s (vol_e (uniform_dx h) (uniform_dx h)) f g = (RtoC (h AX * h AY * h AZ) * vpair s f g)%C.
Proof.
  intros. unfold wvpair, wpair, vpair, pair. transitivity (RtoC (h AX * h AY * h AZ) * grid_sum s (fun i j k => f AX i j k * g AX i j k) + RtoC (h AX * h AY * h AZ) * grid_sum s (fun i j k => f AY i j k * g AY i j k) +
    RtoC (h AX * h AY * h AZ) * grid_sum s (fun i j k => f AZ i j k * g AZ i j k))%C; [| ring].
  rewrite <- !grid_sum_scal. f_equal; [f_equal |]; apply grid_sum_ext; intros; unfold vol_e, uniform_dx; apply C_eq; cbn [re im RtoC Cmul]; ring.
Qed.
Lemma wpair_plain : forall s h f g, wpair s (area (uniform_dx h)) f g = (RtoC (h AX * h AY) * pair s f g)%C.
Proof.
  intros. unfold wpair, pair. rewrite <- grid_sum_scal. apply grid_sum_ext; intros; unfold area, uniform_dx; apply C_eq; cbn [re im RtoC Cmul]; ring.
Qed.
Lemma h_nz : forall s h, (forall a, (0 < s a)%nat) -> nz_pixel s (uniform_dx h) -> forall a, h a <> 0.
Proof. intros s h Hs H a E. apply (H a 0%nat (Hs a)). unfold uniform_dx. rewrite E. reflexivity. Qed.
Lemma near_exact3 : forall d solver src, exact3c d solver src -> near3c d solver src (fun _ _ _ _ => C0).
Proof. intros d solver src H c r Hr. rewrite (H c r Hr). unfold ravel. ring. Qed.
Lemma near_exact2 : forall d M solver src, exact2c d M solver src -> near2c d M solver src (fun _ _ _ => C0).
Proof. intros d M solver src H r Hr. rewrite (H r Hr). unfold ravel. ring. Qed.
Lemma vnorm2_0 : forall s f, (forall c i j k, in_grid s i j k -> f c i j k = C0) -> vnorm2 s f = 0.
Proof. intros s f H. rewrite (vnorm2_scal s f f 0); [rewrite Rabs_R0; ring |]. intros c i j k Hg. rewrite (H c i j k Hg). ring. Qed.
Lemma norm2_0 : forall s f, (forall i j k, in_grid s i j k -> f i j k = C0) -> norm2 s f = 0.
Proof. intros s f H. rewrite (norm2_scal s f f 0); [rewrite Rabs_R0; ring |]. intros i j k Hg. rewrite (H i j k Hg). ring. Qed.
Lemma final_bound : forall k0 sigma dl p q x y, 0 < k0 -> 0 < sigma -> 0 <= dl -> 0 <= x -> 0 <= y -> 0 <= p -> k0 * sigma * x <= dl / sigma * p -> k0 * sigma * y <= q ->
  k0 * (dl * x * y) <= dl * dl / (k0 * (sigma * sigma * sigma)) * (p * q).
Proof.
  intros k0 sigma dl p q x y Hk Hs Hd Hx Hy Hp H1 H2. assert (K : 0 < k0 * sigma) by (apply Rmult_lt_0_compat; auto).
  assert (M : (k0 * sigma * x) * (k0 * sigma * y) <= (dl / sigma * p) * q) by (apply Rmult_le_compat; auto; apply Rmult_le_pos; lra).
  assert (C : 0 <= dl / (k0 * sigma * sigma)). { unfold Rdiv. apply Rmult_le_pos; [lra |]. left. apply Rinv_0_lt_compat. apply Rmult_lt_0_compat; lra. }
  apply (Rmult_le_compat_l _ _ _ C) in M.
  replace (dl / (k0 * sigma * sigma) * (k0 * sigma * x * (k0 * sigma * y))) with (k0 * (dl * x * y)) in M by (field; lra).
  replace (dl / (k0 * sigma * sigma) * (dl / sigma * p * q)) with (dl * dl / (k0 * (sigma * sigma * sigma)) * (p * q)) in M by (field; lra). exact M.
Qed.
Lemma empty_sum : forall s F, (exists a, s a = 0%nat) -> grid_sum s F = C0.
Proof.
  intros s F (a & E). transitivity (grid_sum s (fun i j k => C0 * C0)%C); [| rewrite grid_sum_scal; ring].
  apply grid_sum_ext. intros i j k (Hi & Hj & Hk). destruct a; lia.
Qed.
Lemma shape_cases : forall s : shape3, (forall a, (0 < s a)%nat) \/ exists a, s a = 0%nat.
Proof.
  intros s. destruct (Nat.eq_dec (s AX) 0); [right; eauto |]. destruct (Nat.eq_dec (s AY) 0); [right; eauto |]. destruct (Nat.eq_dec (s AZ) 0); [right; eauto |].
  left. intros []; lia.
Qed.
Lemma bound_pos : forall k0 sigma dl p q, 0 < k0 -> 0 < sigma -> 0 <= p -> 0 <= q -> 0 <= dl * dl / (k0 * (sigma * sigma * sigma)) * (p * q).
Proof.
  intros. apply Rmult_le_pos; [| apply Rmult_le_pos; auto]. unfold Rdiv. apply Rmult_le_pos; [nra |]. left. apply Rinv_0_lt_compat.
  apply Rmult_lt_0_compat; auto. apply Rmult_lt_0_compat; auto. apply Rmult_lt_0_compat; auto.
Qed.
Lemma first_order3 : forall d eps' sigma dl solver solver' solver2 j1 j2, plain_grid d -> cf_bloch d = (fun _ => C1) -> nz_pixel (cf_shape d) (cf_dxf d) -> lossy d sigma -> lossy (with_eps d eps') sigma ->
  (forall i j k, in_grid (cf_shape d) i j k -> Cabs (cf_eps d i j k - eps' i j k)%C <= dl) -> 0 <= dl ->
  exact3c d solver j1 -> exact3c (with_eps d eps') solver' j1 -> exact3c d solver2 j2 ->
  let s := cf_shape d in let e1 := fst (solve3c d solver j1) in let e1' := fst (solve3c (with_eps d eps') solver' j1) in let e2 := fst (solve3c d solver2 j2) in
  Cabs (vpair s e1' j2 - vpair s e1 j2 - RtoC (cf_k0 d) * pair s (fsub eps' (cf_eps d)) (sens_v s (vmul e1 e2)))%C <=
  dl * dl / (cf_k0 d * (sigma * sigma * sigma)) * (vnorm2 s j1 * vnorm2 s j2).
Proof.
  intros d eps' sigma dl solver solver' solver2 j1 j2 Hp Hbl Hnz Hl Hl' He Hdl H1 H1' H2 s e1 e1' e2. pose proof Hp as ((h & Hf & Hb) & Hk). pose proof Hl as (Hs & _).
  assert (Hnz' : nz_pixel (cf_shape d) (cf_dxb d)) by (rewrite Hb, <- Hf; exact Hnz).
  destruct (shape_cases s) as [Hsh | Hem].
  2:{ unfold vpair, pair. rewrite !(empty_sum s) by exact Hem. match goal with |- Cabs ?z <= _ => replace z with C0 by ring end. rewrite Cabs_C0. apply bound_pos; auto; apply sqrt_pos. }
  pose proof (change3 d eps' solver solver' solver2 j1 j2 Hbl ltac:(lra) Hnz Hnz' H1 H1' H2) as E. cbv zeta in E. fold s e1 e1' e2 in E. rewrite Hf, Hb, !wvpair_plain in E.
  assert (Hh : forall a, h a <> 0) by (apply (h_nz s); auto; rewrite <- Hf; exact Hnz).
  set (v := h AX * h AY * h AZ) in *. assert (Hv : v <> 0) by (unfold v; repeat apply Rmult_integral_contrapositive_currified; auto).
  assert (E' : (vpair s e1' j2 - vpair s e1 j2)%C = (RtoC (cf_k0 d) * vpair s (fun c i j k => (eps_at s eps' c i j k - eps_at s (cf_eps d) c i j k) * e1' c i j k) e2)%C).
  { apply (Cmul_cancel (RtoC v)); [apply k0_nz; exact Hv |]. transitivity (RtoC v * vpair s e1' j2 - RtoC v * vpair s e1 j2)%C; [ring |]. rewrite E. ring. }
  rewrite E', <- move_v.
  set (D := fun c i j k => ((eps_at s eps' c i j k - eps_at s (cf_eps d) c i j k) * vsub e1' e1 c i j k)%C).
  assert (E2 : (RtoC (cf_k0 d) * vpair s (fun c i j k => (eps_at s eps' c i j k - eps_at s (cf_eps d) c i j k) * e1' c i j k) e2 -
    RtoC (cf_k0 d) * vpair s (fun c i j k => (eps_at s eps' c i j k - eps_at s (cf_eps d) c i j k) * e1 c i j k) e2)%C = (RtoC (cf_k0 d) * vpair s D e2)%C).
  { match goal with |- (?a * ?x - ?a * ?y)%C = _ => transitivity (a * (x - y))%C; [ring |] end. f_equal. unfold vpair.
    match goal with |- (?a + ?b + ?c - (?a' + ?b' + ?c'))%C = _ => transitivity ((a - a') + (b - b') + (c - c'))%C; [ring |] end.
    unfold pair. rewrite <- !grid_sum_sub. f_equal; [f_equal |]; apply grid_sum_ext; intros; unfold D, vsub, fsub; ring. }
  rewrite E2, Cabs_mul, Cabs_RtoC by lra.
  assert (Dn : vnorm2 s D <= dl * vnorm2 s (vsub e1 e1')).
  { apply vnorm2_mul; auto. intros c i j k Hg. pose proof (Cn2_scaled 1 dl (eps_at s (cf_eps d) c i j k - eps_at s eps' c i j k) (vsub e1 e1' c i j k) ltac:(lra) (eps_at_close s _ _ dl He c i j k Hg)) as Q.
    replace (D c i j k) with (RtoC 1 * ((eps_at s (cf_eps d) c i j k - eps_at s eps' c i j k) * vsub e1 e1' c i j k))%C; [lra |].
    unfold D, vsub, fsub. apply C_eq; cbn [re im RtoC Cmul Csub]; ring. }
  pose proof (stable3 d eps' sigma dl j1 j1 (fun _ _ _ _ => C0) solver solver' Hp Hl Hl' He Hdl (near_exact3 _ _ _ H1) H1') as S1. fold s e1 e1' in S1.
  rewrite (vnorm2_0 s (vsub j1 j1)) in S1 by (intros; unfold vsub, fsub; ring). rewrite (vnorm2_0 s (fun _ _ _ _ => C0)) in S1 by reflexivity.
  assert (W2 : wave3 d j2 e2) by (apply exact3c_wave; exact H2).
  pose proof (w3_bound d h Hf Hb Hk sigma _ _ Hl W2) as B. fold s in B. apply sqrt_bound in B; [| apply Rmult_le_pos; lra | apply vpower2_nonneg]. fold (vnorm2 s e2) in B. fold (vnorm2 s j2) in B.
  pose proof (vpair_CS s D e2) as CS.
  apply Rle_trans with (cf_k0 d * (dl * vnorm2 s (vsub e1 e1') * vnorm2 s e2)).
  - apply Rmult_le_compat_l; [lra |]. eapply Rle_trans; [exact CS |]. apply Rmult_le_compat_r; [apply sqrt_pos | exact Dn].
  - apply final_bound; auto; try apply sqrt_pos. unfold Rdiv at 1 in S1. lra.
Qed.
Lemma first_order_te : forall d eps' sigma dl solver solver' solver2 j1 j2, plain_grid d -> cf_bloch d = (fun _ => C1) -> nz_pixel (cf_shape d) (cf_dxf d) -> lossy d sigma -> lossy (with_eps d eps') sigma ->
  (forall i j k, in_grid (cf_shape d) i j k -> Cabs (cf_eps d i j k - eps' i j k)%C <= dl) -> 0 <= dl ->
  exact2c d (mat_ez_c d) solver j1 -> exact2c (with_eps d eps') (mat_ez_c (with_eps d eps')) solver' j1 -> exact2c d (mat_ez_c d) solver2 j2 ->
  let s := cf_shape d in let e1 := fst (solve2_te_c d solver j1) AZ in let e1' := fst (solve2_te_c (with_eps d eps') solver' j1) AZ in let e2 := fst (solve2_te_c d solver2 j2) AZ in
  Cabs (pair s e1' j2 - pair s e1 j2 - RtoC (cf_k0 d) * pair s (fsub eps' (cf_eps d)) (sens_z s (fmul e1 e2)))%C <=
  dl * dl / (cf_k0 d * (sigma * sigma * sigma)) * (norm2 s j1 * norm2 s j2).
Proof.
  intros d eps' sigma dl solver solver' solver2 j1 j2 Hp Hbl Hnz Hl Hl' He Hdl H1 H1' H2 s e1 e1' e2. pose proof Hp as ((h & Hf & Hb) & Hk). pose proof Hl as (Hs & _).
  assert (Hnz' : nz_pixel (cf_shape d) (cf_dxb d)) by (rewrite Hb, <- Hf; exact Hnz).
  destruct (shape_cases s) as [Hsh | Hem].
  2:{ unfold pair. rewrite !(empty_sum s) by exact Hem. match goal with |- Cabs ?z <= _ => replace z with C0 by ring end. rewrite Cabs_C0. apply bound_pos; auto; apply sqrt_pos. }
  pose proof (change_te d eps' solver solver' solver2 j1 j2 Hbl ltac:(lra) Hnz Hnz' H1 H1' H2) as E. cbv zeta in E. fold s e1 e1' e2 in E. rewrite Hb, !wpair_plain in E.
  assert (Hh : forall a, h a <> 0) by (apply (h_nz s); auto; rewrite <- Hf; exact Hnz).
  set (v := h AX * h AY) in *. assert (Hv : v <> 0) by (unfold v; repeat apply Rmult_integral_contrapositive_currified; auto).
  assert (E' : (pair s e1' j2 - pair s e1 j2)%C = (RtoC (cf_k0 d) * pair s (fun i j k => (eps_at s eps' AZ i j k - eps_at s (cf_eps d) AZ i j k) * e1' i j k) e2)%C).
  { apply (Cmul_cancel (RtoC v)); [apply k0_nz; exact Hv |]. transitivity (RtoC v * pair s e1' j2 - RtoC v * pair s e1 j2)%C; [ring |]. rewrite E. ring. }
  rewrite E', <- move_te.
  set (D := fun i j k => ((eps_at s eps' AZ i j k - eps_at s (cf_eps d) AZ i j k) * fsub e1' e1 i j k)%C).
  assert (E2 : (RtoC (cf_k0 d) * pair s (fun i j k => (eps_at s eps' AZ i j k - eps_at s (cf_eps d) AZ i j k) * e1' i j k) e2 -
    RtoC (cf_k0 d) * pair s (fun i j k => (eps_at s eps' AZ i j k - eps_at s (cf_eps d) AZ i j k) * e1 i j k) e2)%C = (RtoC (cf_k0 d) * pair s D e2)%C).
  { match goal with |- (?a * ?x - ?a * ?y)%C = _ => transitivity (a * (x - y))%C; [ring |] end. f_equal.
    unfold pair. rewrite <- !grid_sum_sub. apply grid_sum_ext; intros; unfold D, fsub; ring. }
  rewrite E2, Cabs_mul, Cabs_RtoC by lra.
  assert (Dn : norm2 s D <= dl * norm2 s (fsub e1 e1')).
  { apply norm2_mul; auto. intros i j k Hg. pose proof (Cn2_scaled 1 dl (eps_at s (cf_eps d) AZ i j k - eps_at s eps' AZ i j k) (fsub e1 e1' i j k) ltac:(lra) (eps_at_close s _ _ dl He AZ i j k Hg)) as Q.
    replace (D i j k) with (RtoC 1 * ((eps_at s (cf_eps d) AZ i j k - eps_at s eps' AZ i j k) * fsub e1 e1' i j k))%C; [lra |].
    unfold D, fsub. apply C_eq; cbn [re im RtoC Cmul Csub]; ring. }
  pose proof (stable_te d eps' sigma dl j1 j1 (fun _ _ _ => C0) solver solver' Hp Hl Hl' He Hdl (near_exact2 _ _ _ _ H1) H1') as S1. fold s e1 e1' in S1.
  rewrite (norm2_0 s (fsub j1 j1)) in S1 by (intros; unfold fsub; ring). rewrite (norm2_0 s (fun _ _ _ => C0)) in S1 by reflexivity.
  assert (W2 : wave_te d j2 e2) by (apply exact_te_wave; exact H2).
  pose proof (te_bound d h Hf Hb Hk sigma _ _ Hl W2) as B. fold s in B. apply sqrt_bound in B; [| apply Rmult_le_pos; lra | apply power2_nonneg]. fold (norm2 s e2) in B. fold (norm2 s j2) in B.
  pose proof (pair_CS s D e2) as CS.
  apply Rle_trans with (cf_k0 d * (dl * norm2 s (fsub e1 e1') * norm2 s e2)).
  - apply Rmult_le_compat_l; [lra |]. eapply Rle_trans; [exact CS |]. apply Rmult_le_compat_r; [apply sqrt_pos | exact Dn].
  - apply final_bound; auto; try apply sqrt_pos. unfold Rdiv at 1 in S1. lra.
Qed.
