(** Proofs for C165 and C169, TM: changes of permittivity. *)
From Coq Require Import Reals List Arith ZArith Lra Lia Bool.
From Verif Require Import Cx Arr Model_coupling Model_yee Spec_yee Model_fdfd Spec_fdfd Spec_fdtd Proof_energy Proof_absorb Proof_adj Proof_fdfd Proof_fdfd2 Proof_fdfd3 Proof_fdfd4 Proof_yee Proof_yee2 Proof_yee3 Model_fdfdc Spec_fdfdc Proof_fdfdc Proof_fdfdc2 Proof_fdfdc3
  Proof_fdfdsy Spec_fdfdst Proof_fdfdst Proof_fdfdst2 Spec_fdfdad Proof_fdfdad Spec_fdfdtm.
Local Open Scope R_scope.

Lemma vinner_CS : forall s f g, Cabs (vinner s f g) <= vnorm2 s f * vnorm2 s g.
Proof.
  intros s f g. set (g' := fun c i j k => Cconj (g c i j k)).
  assert (E : vinner s f g = vpair s f g') by reflexivity. rewrite E.
  assert (N : vnorm2 s g' = vnorm2 s g).
  { unfold vnorm2, vpower2, sum3, power2. f_equal. f_equal; [f_equal |]; apply rgrid_sum_ext; intros; unfold g', Cn2; cbn [re im Cconj]; ring. }
  rewrite <- N. apply vpair_CS.
Qed.
Lemma inner_CS : forall s f g, Cabs (inner s f g) <= norm2 s f * norm2 s g.
Proof.
  intros s f g. set (g' := fun i j k => Cconj (g i j k)).
  assert (E : inner s f g = pair s f g') by reflexivity. rewrite E.
  assert (N : norm2 s g' = norm2 s g).
  { unfold norm2, power2. f_equal. apply rgrid_sum_ext; intros; unfold g', Cn2; cbn [re im Cconj]; ring. }
  rewrite <- N. apply pair_CS.
Qed.
Lemma Cabs_form : forall p q z, p * re z + q * im z <= sqrt (p * p + q * q) * Cabs z.
Proof.
  intros p q z. apply sq_le_le.
  2:{ replace (sqrt (p * p + q * q) * Cabs z * (sqrt (p * p + q * q) * Cabs z)) with (sqrt (p * p + q * q) * sqrt (p * p + q * q) * (Cabs z * Cabs z)) by ring.
    rewrite sqrt_sqrt by nra. rewrite Cabs_sq. unfold Cn2. pose proof (Rle_0_sqr (p * im z - q * re z)) as Sq. unfold Rsqr in Sq. lra. }
  apply Rmult_le_pos; [apply sqrt_pos | apply Cabs_nonneg].
Qed.
(** ** The energy argument. *)
Lemma key : forall s k0 sigma kappa dl g (eps D : vfld) (p q : vfld) (src x : fld),
  (g = 1 \/ g = -1) -> 0 < k0 -> 0 <= dl ->
  (forall c i j k, in_grid s i j k -> sigma <= g * im (eps c i j k)) ->
  (forall c i j k, in_grid s i j k -> re (eps c i j k) <= kappa * g * im (eps c i j k)) ->
  (forall c i j k, in_grid s i j k -> Cabs (D c i j k) <= dl) ->
  vinner s p (fun c i j k => eps c i j k * p c i j k + D c i j k * q c i j k)%C = (RtoC (k0 * k0) * RtoC (power2 s x) + RtoC k0 * inner s src x)%C ->
  let U := dl * vnorm2 s q * vnorm2 s p + norm2 s src * (k0 * norm2 s x) in
  (k0 * norm2 s x) * (k0 * norm2 s x) <= sqrt (1 + kappa * kappa) * U /\ sigma * (vnorm2 s p * vnorm2 s p) <= U.
Proof.
  intros s k0 sigma kappa dl g eps D p q src x Hg Hk Hdl HL HW HD E U.
  set (A := vinner s p (fun c i j k => eps c i j k * p c i j k)%C). set (B := vinner s p (fun c i j k => D c i j k * q c i j k)%C).
  assert (E1 : (A + B)%C = (RtoC (k0 * k0) * RtoC (power2 s x) + RtoC k0 * inner s src x)%C).
  { rewrite <- E. assert (Q : forall c, inner s (p c) (fun i j k => eps c i j k * p c i j k + D c i j k * q c i j k)%C = (inner s (p c) (fun i j k => eps c i j k * p c i j k)%C + inner s (p c) (fun i j k => D c i j k * q c i j k)%C)%C).
    { intros c. unfold inner. rewrite <- grid_sum_add. apply grid_sum_ext; intros; apply C_eq; cbn [re im Cmul Cadd Cconj]; ring. }
    unfold A, B, vinner. rewrite !Q. ring. }
  set (N := (B - RtoC k0 * inner s src x)%C).
  assert (E2 : (A + N)%C = RtoC (k0 * norm2 s x * (k0 * norm2 s x))).
  { replace (k0 * norm2 s x * (k0 * norm2 s x)) with (k0 * k0 * (norm2 s x * norm2 s x)) by ring.
    unfold norm2. rewrite sqrt_sqrt by apply power2_nonneg. unfold N. transitivity (A + B - RtoC k0 * inner s src x)%C; [ring |]. rewrite E1. apply C_eq; cbn [re im RtoC Cadd Cmul Csub]; ring. }
  assert (HN : Cabs N <= U).
  { unfold N, U. eapply Rle_trans; [replace (B - RtoC k0 * inner s src x)%C with (B + RtoC (-1) * (RtoC k0 * inner s src x))%C by (apply C_eq; cbn [re im RtoC Cadd Csub Cmul]; ring); apply Cabs_add |].
    rewrite !Cabs_mul. assert (M1 : Cabs (RtoC (-1)) = 1). { unfold Cabs, Cn2. cbn [re im RtoC]. replace (-1 * -1 + 0 * 0) with (1 * 1) by ring. apply sqrt_square; lra. }
    rewrite M1, (Cabs_RtoC k0) by lra. apply Rplus_le_compat.
    - unfold B. eapply Rle_trans; [apply vinner_CS |]. rewrite Rmult_comm. apply Rmult_le_compat_r; [apply sqrt_pos |].
      apply vnorm2_mul; auto. intros c i j k Hin. pose proof (Cn2_scaled 1 dl (D c i j k) (q c i j k) ltac:(lra) (HD c i j k Hin)) as Q.
      assert (T : (RtoC 1 * (D c i j k * q c i j k))%C = (D c i j k * q c i j k)%C) by (apply C_eq; cbn [re im RtoC Cmul]; ring). rewrite T in Q. lra.
    - rewrite Rmult_1_l. pose proof (inner_CS s src x) as Q. replace (norm2 s src * (k0 * norm2 s x)) with (k0 * (norm2 s src * norm2 s x)) by ring. apply Rmult_le_compat_l; lra. }
  assert (RA : forall c, inner s (p c) (fun i j k => eps c i j k * p c i j k)%C = mkC (wsum s (fun i j k => re (eps c i j k)) (p c)) (- wsum s (fun i j k => im (eps c i j k)) (p c))).
  { intros c. unfold inner, wsum. apply C_eq; cbn [re im].
    - rewrite re_grid_sum. apply rgrid_sum_ext. intros. unfold Cn2. cbn [re Cmul Cconj im]. ring.
    - rewrite im_grid_sum, rgrid_sum_opp. apply rgrid_sum_ext. intros. unfold Cn2. cbn [re Cmul Cconj im]. ring. }
  assert (LA : sigma * (vnorm2 s p * vnorm2 s p) <= - g * im A).
  { unfold vnorm2. rewrite sqrt_sqrt by apply vpower2_nonneg. unfold A, vinner. rewrite !RA. cbn [im Cadd]. unfold vpower2, sum3.
    assert (L : forall c, sigma * power2 s (p c) <= g * wsum s (fun i j k => im (eps c i j k)) (p c)).
    { intros c. pose proof (wsum_lower s (fun i j k => 0 * 0 + g * im (eps c i j k)) (p c) sigma ltac:(intros; specialize (HL c i j k H); lra)) as W.
      rewrite (wsum_lin s 0 g (fun _ _ _ => 0)) in W. lra. }
    pose proof (L AX). pose proof (L AY). pose proof (L AZ). lra. }
  assert (WA : re A <= - kappa * g * im A).
  { unfold A, vinner. rewrite !RA. cbn [re im Cadd].
    assert (L : forall c, wsum s (fun i j k => re (eps c i j k)) (p c) <= kappa * g * wsum s (fun i j k => im (eps c i j k)) (p c)).
    { intros c. unfold wsum. rewrite <- rgrid_sum_scal. apply rgrid_sum_le. intros i j k Hin. rewrite <- Rmult_assoc. apply Rmult_le_compat_r; [unfold Cn2; nra | apply HW; exact Hin]. }
    pose proof (L AX). pose proof (L AY). pose proof (L AZ). lra. }
  pose proof (f_equal im E2) as I2. pose proof (f_equal re E2) as R2. cbn [re im RtoC Cadd] in I2, R2.
  assert (GG : g * g = 1) by (destruct Hg as [-> | ->]; ring).
  assert (IA : im A = - im N) by lra. split.
  - rewrite <- R2. rewrite IA in WA. pose proof (Cabs_form 1 (kappa * g) N) as F.
    replace (1 * 1 + kappa * g * (kappa * g)) with (1 + kappa * kappa) in F by (replace (kappa * g * (kappa * g)) with (kappa * kappa * (g * g)) by ring; rewrite GG; ring).
    pose proof (Rmult_le_compat_l _ _ _ (sqrt_pos (1 + kappa * kappa)) HN). lra.
  - rewrite IA in LA. pose proof (Cabs_form 0 g N) as F. replace (0 * 0 + g * g) with 1 in F by lra. rewrite sqrt_1 in F. lra.
Qed.
(** x^2 <= c (a p + y x), sigma p^2 <= a p + y x. *)
Lemma two_quadratics : forall c sigma a p y x, 0 < sigma -> 0 <= c -> 0 <= a -> 0 <= p -> 0 <= y -> 0 <= x ->
  x * x <= c * (a * p + y * x) -> sigma * (p * p) <= a * p + y * x -> x <= sqrt c * (a / sqrt sigma) + c * y /\ sqrt sigma * p <= a / sqrt sigma + sqrt c * y.
Proof.
  intros c sigma a p y x Hs Hc Ha Hp Hy Hx H1 H2. set (V := a * p + y * x) in *.
  assert (HV : 0 <= V) by (unfold V; nra). pose proof (sqrt_sqrt V HV) as SV. pose proof (sqrt_pos V) as PV. set (u := sqrt V) in *.
  pose proof (sqrt_lt_R0 sigma Hs) as Ps. pose proof (sqrt_sqrt sigma ltac:(lra)) as Ss. pose proof (sqrt_pos c) as Pc. pose proof (sqrt_sqrt c Hc) as Sc. set (r := sqrt sigma) in *. set (t := sqrt c) in *.
  assert (Bp : r * p <= u). { apply sq_le_le; auto. replace (r * p * (r * p)) with (r * r * (p * p)) by ring. rewrite Ss, SV. exact H2. }
  assert (Bx : x <= t * u). { apply sq_le_le; [apply Rmult_le_pos; auto |]. replace (t * u * (t * u)) with (t * t * (u * u)) by ring. rewrite Sc, SV. exact H1. }
  assert (Ai : 0 <= a / r) by (unfold Rdiv; apply Rmult_le_pos; [auto | left; apply Rinv_0_lt_compat; auto]).
  assert (Bu : u <= a / r + t * y).
  { destruct (Req_dec u 0) as [Z | Z]; [rewrite Z; pose proof (Rmult_le_pos _ _ Pc Hy); lra |].
    apply (Rmult_le_reg_l u); [lra |]. rewrite SV. unfold V. replace (a * p) with (a / r * (r * p)) by (field; lra).
    pose proof (Rmult_le_compat_l _ _ _ Ai Bp). pose proof (Rmult_le_compat_l _ _ _ Hy Bx). lra. }
  split; [| lra].
  eapply Rle_trans; [exact Bx |]. eapply Rle_trans; [apply Rmult_le_compat_l; [exact Pc | exact Bu] |]. rewrite <- Sc. right. ring.
Qed.
(** ** Two permittivities. *)
Lemma inner_flux : forall d h f (p : vfld) src, cf_dxf d = uniform_dx h -> cf_dxb d = uniform_dx h ->
  (forall i j k, in_grid (cf_shape d) i j k -> (- dminus d (p AY) AX i j k - dminus d (p AX) AY i j k)%C = (RtoC (cf_k0 d * cf_k0 d) * f i j k + RtoC (cf_k0 d) * src i j k)%C) ->
  (inner (cf_shape d) (p AX) (dplus d f AY) + inner (cf_shape d) (p AY) (dplus d f AX))%C =
  (RtoC (cf_k0 d * cf_k0 d) * RtoC (power2 (cf_shape d) f) + RtoC (cf_k0 d) * inner (cf_shape d) src f)%C.
Proof.
  intros d h f p src Hf Hb W. rewrite <- inner_self, <- !inner_scal_l, <- inner_add_l.
  transitivity (inner (cf_shape d) (fun i j k => - dminus d (p AY) AX i j k - dminus d (p AX) AY i j k)%C f).
  2:{ apply inner_ext'; [exact W | intros i j k _; reflexivity]. }
  rewrite inner_sub_l. rewrite (inner_ext' (cf_shape d) (fun i j k => - dminus d (p AY) AX i j k)%C f (fun i j k => (- C1) * dminus d (p AY) AX i j k)%C f); [| intros i j k _; ring | intros i j k _; reflexivity].
  rewrite inner_scal_l, !(dm_adj d h Hf Hb). ring.
Qed.
Lemma flux_sub : forall d eps' f f' S S' i j k, wave_tm d S f -> wave_tm (with_eps d eps') S' f' -> in_grid (cf_shape d) i j k ->
  (- dminus d (vsub (flux d f) (flux (with_eps d eps') f') AY) AX i j k - dminus d (vsub (flux d f) (flux (with_eps d eps') f') AX) AY i j k)%C =
  (RtoC (cf_k0 d * cf_k0 d) * fsub f f' i j k + RtoC (cf_k0 d) * fsub S S' i j k)%C.
Proof.
  intros d eps' f f' S S' i j k W W' Hg. specialize (W i j k Hg). specialize (W' i j k Hg). cbn [with_eps cf_k0] in W'.
  unfold vsub. rewrite !dminus_sub. unfold fsub.
  match type of W with ?a = ?b => match type of W' with ?a' = ?b' => transitivity (a - a')%C; [| rewrite W, W'; ring] end end.
  match goal with |- (- (?a - ?b) - (?c - ?e))%C = _ => transitivity ((- a - c) - (- b - e))%C; [ring | reflexivity] end.
Qed.
Lemma vinner_z0 : forall s (u v : vfld), (forall i j k, u AZ i j k = C0) -> vinner s u v = (inner s (u AX) (v AX) + inner s (u AY) (v AY))%C.
Proof.
  intros s u v H. unfold vinner. rewrite (inner_ext' s (u AZ) (v AZ) (fun i j k => C0 * u AZ i j k)%C (v AZ)); [| intros i j k _; rewrite H; ring | intros i j k _; reflexivity].
  rewrite inner_scal_l. ring.
Qed.
Lemma lossy_good : forall d h sigma kappa, cf_dxf d = uniform_dx h -> cf_dxb d = uniform_dx h -> 0 < cf_k0 d -> lossy d sigma -> sloped d kappa ->
  exists g, (g = 1 \/ g = -1) /\ (forall c i j k, in_grid (cf_shape d) i j k -> sigma <= g * im (eps_at (cf_shape d) (cf_eps d) c i j k)) /\
    (forall c i j k, in_grid (cf_shape d) i j k -> re (eps_at (cf_shape d) (cf_eps d) c i j k) <= kappa * g * im (eps_at (cf_shape d) (cf_eps d) c i j k)).
Proof.
  intros d h sigma kappa Hf Hb Hk (Hs & L) HK. destruct L as [H | H]; [exists 1 | exists (-1)]; (split; [auto |]).
  - assert (HL : forall i j k, in_grid (cf_shape d) i j k -> sigma <= 1 * im (cf_eps d i j k)) by (intros i j k Hin; specialize (H i j k Hin); lra).
    split; [| exact (wide_ok d sigma kappa 1 (or_introl eq_refl) Hs HL HK)].
    intros c i j k Hg. pose proof (eps_at_form (cf_shape d) (cf_eps d) 0 1 sigma ltac:(intros a b e Hab; specialize (HL a b e Hab); lra) c i j k Hg). lra.
  - assert (HL : forall i j k, in_grid (cf_shape d) i j k -> sigma <= -1 * im (cf_eps d i j k)) by (intros i j k Hin; specialize (H i j k Hin); lra).
    split; [| exact (wide_ok d sigma kappa (-1) (or_intror eq_refl) Hs HL HK)].
    intros c i j k Hg. pose proof (eps_at_form (cf_shape d) (cf_eps d) 0 (-1) sigma ltac:(intros a b e Hab; specialize (HL a b e Hab); lra) c i j k Hg). lra.
Qed.
(** What the energy argument gives for two permittivities. *)
Lemma tm_two : forall d eps' sigma kappa dl S S' f f', plain_grid d -> lossy d sigma -> lossy (with_eps d eps') sigma -> sloped d kappa ->
  (forall i j k, in_grid (cf_shape d) i j k -> Cabs (cf_eps d i j k - eps' i j k)%C <= dl) -> 0 <= dl ->
  wave_tm d S f -> wave_tm (with_eps d eps') S' f' -> let s := cf_shape d in let q := flux (with_eps d eps') f' in let p := vsub (flux d f) q in
  let c := sqrt (1 + kappa * kappa) in
  cf_k0 d * norm2 s (fsub f f') <= sqrt c * (dl * vnorm2 s q / sqrt sigma) + c * norm2 s (fsub S S') /\
  sqrt sigma * vnorm2 s p <= dl * vnorm2 s q / sqrt sigma + sqrt c * norm2 s (fsub S S').
Proof.
  intros d eps' sigma kappa dl S S' f f' Hp Hl Hl' HK He Hdl W W' s q p c. pose proof Hp as ((h & Hf & Hb) & Hk). pose proof Hl as (Hs & _).
  destruct (lossy_good d h sigma kappa Hf Hb Hk Hl HK) as (g & Hg & HL & HW).
  pose proof (inner_flux d h (fsub f f') p (fsub S S') Hf Hb (fun i j k Hin => flux_sub d eps' f f' S S' i j k W W' Hin)) as E. fold s in E.
  assert (N1 := eps_nz d sigma Hl). assert (N2 := eps_nz (with_eps d eps') sigma Hl'). cbn [with_eps cf_shape cf_eps] in N2. fold s in N1, N2.
  set (D := fun c i j k => (eps_at s (cf_eps d) c i j k - eps_at s eps' c i j k)%C).
  assert (Q : vinner s p (fun c i j k => eps_at s (cf_eps d) c i j k * p c i j k + D c i j k * q c i j k)%C = (RtoC (cf_k0 d * cf_k0 d) * RtoC (power2 s (fsub f f')) + RtoC (cf_k0 d) * inner s (fsub S S') (fsub f f'))%C).
  { rewrite <- E. rewrite vinner_z0 by (intros; unfold p, q, vsub, fsub, flux; ring).
    f_equal; apply inner_ext'; try (intros i j k _; reflexivity); intros i j k Hin; rewrite dplus_sub; unfold p, q, D, vsub, flux; unfold fsub at 1; cbn [with_eps cf_shape cf_eps]; fold s.
    - change (dplus (with_eps d eps') f' AY i j k) with (dplus d f' AY i j k). field. split; [apply N2 | apply N1]; exact Hin.
    - change (dplus (with_eps d eps') f' AX i j k) with (dplus d f' AX i j k). field. split; [apply N2 | apply N1]; exact Hin. }
  destruct (key s (cf_k0 d) sigma kappa dl g (eps_at s (cf_eps d)) D p q (fsub S S') (fsub f f') Hg Hk Hdl HL HW ltac:(intros; apply eps_at_close; auto) Q) as (K1 & K2).
  assert (Pc : 0 <= c) by apply sqrt_pos.
  apply two_quadratics; auto; try apply sqrt_pos; try (apply Rmult_le_pos; [lra | apply sqrt_pos]).
Qed.
(** The field of one simulation. *)
Lemma flux_bound : forall d sigma kappa src f, plain_grid d -> lossy d sigma -> sloped d kappa -> wave_tm d src f ->
  sqrt sigma * vnorm2 (cf_shape d) (flux d f) <= sqrt (sqrt (1 + kappa * kappa)) * norm2 (cf_shape d) src.
Proof.
  intros d sigma kappa src f Hp Hl HK W. set (s := cf_shape d).
  assert (W0 : wave_tm (with_eps d (cf_eps d)) (fun _ _ _ => C0) (fun _ _ _ => C0)).
  { pose proof (wave_tm_sub d _ _ _ _ W W) as W0. pose proof W as W1. intros i j k Hg. cbn [with_eps cf_k0]. specialize (W0 i j k Hg).
    assert (Z : forall a (x : fld), (forall i j k, in_grid s i j k -> x i j k = C0) -> dminus d x a i j k = C0).
    { intros a x Hx. rewrite (dminus_ext d x (fsub (fun _ _ _ => C0) (fun _ _ _ => C0)) a i j k); [rewrite dminus_sub; ring | | exact Hg]. intros u v w Hin. rewrite Hx by exact Hin. unfold fsub. ring. }
    assert (Z' : forall a i j k, in_grid s i j k -> dplus d (fun _ _ _ => C0) a i j k = C0).
    { intros a u v w Hin. rewrite (dplus_ext d (fun _ _ _ => C0) (fsub (fun _ _ _ => C0) (fun _ _ _ => C0)) a u v w); [rewrite dplus_sub; ring | | exact Hin]. intros x y z _. unfold fsub. ring. }
    assert (X1 : forall a (x : fld), (forall i j k, in_grid s i j k -> x i j k = C0) -> dminus (with_eps d (cf_eps d)) x a i j k = C0) by exact Z.
    rewrite !X1; [ring | |].
    - intros u v w Hin. change (dplus (with_eps d (cf_eps d))) with (dplus d). rewrite Z' by exact Hin. unfold Cdiv. ring.
    - intros u v w Hin. change (dplus (with_eps d (cf_eps d))) with (dplus d). rewrite Z' by exact Hin. unfold Cdiv. ring. }
  destruct (tm_two d (cf_eps d) sigma kappa 0 src (fun _ _ _ => C0) f (fun _ _ _ => C0) Hp Hl Hl HK) as (_ & B); auto; try lra.
  { intros i j k _. match goal with |- Cabs ?z <= _ => replace z with C0 by ring end. rewrite Cabs_C0. lra. }
  fold s in B. set (z := flux (with_eps d (cf_eps d)) (fun _ _ _ => C0)) in *.
  assert (E1 : vnorm2 s (flux d f) <= vnorm2 s (vsub (flux d f) z) + vnorm2 s z) by (apply vnorm2_tri; intros; unfold vsub, fsub; ring).
  assert (E2 : vnorm2 s z = 0).
  { apply vnorm2_0. intros c i j k Hin. unfold z, flux.
    assert (Z' : forall a, dplus (with_eps d (cf_eps d)) (fun _ _ _ => C0) a i j k = C0).
    { intros a. change (dplus (with_eps d (cf_eps d))) with (dplus d). rewrite (dplus_ext d (fun _ _ _ => C0) (fsub (fun _ _ _ => C0) (fun _ _ _ => C0)) a i j k); [rewrite dplus_sub; ring | | exact Hin]. intros x y w _. unfold fsub. ring. }
    destruct c; [rewrite Z'; unfold Cdiv; ring | rewrite Z'; unfold Cdiv; ring | reflexivity]. }
  assert (E3 : norm2 s (fsub src (fun _ _ _ => C0)) = norm2 s src).
  { rewrite (norm2_scal s _ src 1); [rewrite Rabs_R1; ring |]. intros i j k _. unfold fsub. apply C_eq; cbn [re im C0 RtoC Csub Cmul]; ring. }
  rewrite E2, E3 in B. rewrite E2 in E1. pose proof (Rmult_le_compat_l _ _ _ (sqrt_pos sigma) E1). unfold Rdiv in B. lra.
Qed.
Lemma stable_tm_eps : forall d eps' sigma kappa dl src src' res solver solver', plain_grid d -> lossy d sigma -> lossy (with_eps d eps') sigma ->
  sloped d kappa -> sloped (with_eps d eps') kappa ->
  (forall i j k, in_grid (cf_shape d) i j k -> Cabs (cf_eps d i j k - eps' i j k)%C <= dl) -> 0 <= dl ->
  near2c d (mat_hz_c d) solver src res -> exact2c (with_eps d eps') (mat_hz_c (with_eps d eps')) solver' src' ->
  cf_k0 d * norm2 (cf_shape d) (fsub (snd (solve2_tm_c d solver src) AZ) (snd (solve2_tm_c (with_eps d eps') solver' src') AZ)) <=
  sqrt (1 + kappa * kappa) * (norm2 (cf_shape d) (fsub src src') + norm2 (cf_shape d) res / cf_k0 d + dl / sigma * norm2 (cf_shape d) src').
Proof.
  intros d eps' sigma kappa dl src src' res solver solver' Hp Hl Hl' HK HK' He Hdl Hn Hx. pose proof Hp as (_ & Hk). pose proof Hl as (Hs & _).
  set (s := cf_shape d) in *. set (k0 := cf_k0 d) in *. set (f := snd (solve2_tm_c d solver src) AZ). set (f' := snd (solve2_tm_c (with_eps d eps') solver' src') AZ).
  assert (W : wave_tm d (plus_res k0 src res) f) by (apply near_tm_wave; auto; unfold k0 in Hk; lra).
  assert (W' : wave_tm (with_eps d eps') src' f') by (apply exact_tm_wave; exact Hx).
  destruct (tm_two d eps' sigma kappa dl _ _ _ _ Hp Hl Hl' HK He Hdl W W') as (B & _). fold s k0 in B.
  pose proof (flux_bound (with_eps d eps') sigma kappa src' f' Hp Hl' HK' W') as Q. cbn [with_eps cf_shape] in Q. fold s (with_eps d eps') in Q. set (qn := vnorm2 s (flux (with_eps d eps') f')) in *.
  change (mkCfdfd s (cf_dxf d) (cf_dxb d) (cf_bloch d) (cf_k0 d) eps') with (with_eps d eps') in Q. fold qn in Q.
  set (c := sqrt (1 + kappa * kappa)) in *. assert (Pc : 0 <= c) by apply sqrt_pos. pose proof (sqrt_pos c) as Pt. pose proof (sqrt_sqrt c Pc) as St.
  pose proof (sqrt_lt_R0 sigma Hs) as Pr. pose proof (sqrt_sqrt sigma ltac:(lra)) as Sr. set (r := sqrt sigma) in *. set (t := sqrt c) in *.
  assert (B2 : t * (dl * qn / r) <= c * (dl / sigma * norm2 s src')).
  { replace (t * (dl * qn / r)) with (t * dl / sigma * (r * qn)) by (rewrite <- Sr; field; lra).
    replace (c * (dl / sigma * norm2 s src')) with (t * dl / sigma * (t * norm2 s src')) by (rewrite <- St; field; lra).
    apply Rmult_le_compat_l; [| exact Q]. unfold Rdiv. apply Rmult_le_pos; [nra | left; apply Rinv_0_lt_compat; lra]. }
  set (Tm := fun i j k => (RtoC (/ k0) * res i j k)%C : C).
  assert (E1 : norm2 s (fsub (plus_res k0 src res) src') <= norm2 s (fsub src src') + norm2 s Tm) by (apply norm2_tri; intros i j k _; unfold Tm, fsub, plus_res; ring).
  assert (E3 : norm2 s Tm = norm2 s res / k0).
  { rewrite (norm2_scal s Tm res (/ k0)) by reflexivity. rewrite Rabs_right by (left; apply Rinv_0_lt_compat; exact Hk). unfold Rdiv. ring. }
  rewrite E3 in E1. pose proof (Rmult_le_compat_l _ _ _ Pc E1). lra.
Qed.
Lemma vpair_zz : forall s (u v : vfld), (forall i j k, u AZ i j k = C0) -> vpair s u v = (pair s (u AX) (v AX) + pair s (u AY) (v AY))%C.
Proof.
  intros s u v H. unfold vpair. assert (Z : pair s (u AZ) (v AZ) = C0).
  { unfold pair. transitivity (grid_sum s (fun i j k => C0 * C0)%C); [apply grid_sum_ext; intros; rewrite H; ring | rewrite grid_sum_scal; ring]. }
  rewrite Z. ring.
Qed.
Lemma first_order_tm : forall d eps' sigma kappa dl solver solver' solver2 j1 j2, plain_grid d -> cf_bloch d = (fun _ => C1) -> nz_pixel (cf_shape d) (cf_dxf d) -> lossy d sigma -> lossy (with_eps d eps') sigma ->
  sloped d kappa -> sloped (with_eps d eps') kappa ->
  (forall i j k, in_grid (cf_shape d) i j k -> Cabs (cf_eps d i j k - eps' i j k)%C <= dl) -> 0 <= dl ->
  exact2c d (mat_hz_c d) solver j1 -> exact2c (with_eps d eps') (mat_hz_c (with_eps d eps')) solver' j1 -> exact2c d (mat_hz_c d) solver2 j2 ->
  let s := cf_shape d in let h1 := snd (solve2_tm_c d solver j1) AZ in let h1' := snd (solve2_tm_c (with_eps d eps') solver' j1) AZ in let h2 := snd (solve2_tm_c d solver2 j2) AZ in
  Cabs (RtoC (cf_k0 d) * (pair s h1' j2 - pair s h1 j2) - pair s (fsub eps' (cf_eps d)) (sens_v s (vmul (flux d h1) (flux d h2))))%C <=
  dl * dl / (sigma * sigma) * sqrt (1 + kappa * kappa) * (norm2 s j1 * norm2 s j2).
Proof.
  intros d eps' sigma kappa dl solver solver' solver2 j1 j2 Hp Hbl Hnz Hl Hl' HK HK' He Hdl H1 H1' H2 s h1 h1' h2. pose proof Hp as ((h & Hf & Hb) & Hk). pose proof Hl as (Hs & _).
  assert (Hnz' : nz_pixel (cf_shape d) (cf_dxb d)) by (rewrite Hb, <- Hf; exact Hnz).
  set (c := sqrt (1 + kappa * kappa)) in *. assert (Pc : 0 <= c) by apply sqrt_pos.
  assert (Pd : 0 <= dl * dl / (sigma * sigma)). { unfold Rdiv. apply Rmult_le_pos; [nra |]. left. apply Rinv_0_lt_compat. apply Rmult_lt_0_compat; lra. }
  destruct (shape_cases s) as [Hsh | Hem].
  2:{ unfold pair. rewrite !(empty_sum s) by exact Hem. match goal with |- Cabs ?z <= _ => replace z with C0 by ring end. rewrite Cabs_C0. apply Rmult_le_pos; [apply Rmult_le_pos; auto | apply Rmult_le_pos; apply sqrt_pos]. }
  assert (W1 : wave_tm d j1 h1) by (apply exact_tm_wave; exact H1). assert (W1' : wave_tm (with_eps d eps') j1 h1') by (apply exact_tm_wave; exact H1').
  assert (W2 : wave_tm d j2 h2) by (apply exact_tm_wave; exact H2).
  pose proof (change_tm d eps' solver solver' solver2 j1 j2 Hbl ltac:(lra) Hnz Hnz' H1 H1' H2) as E. cbv zeta in E. fold s h1 h1' h2 in E. rewrite Hf, Hb, !wpair_plain in E.
  assert (Hh : forall a, h a <> 0) by (apply (h_nz s); auto; rewrite <- Hf; exact Hnz).
  set (v := h AX * h AY) in *. assert (Hv : v <> 0) by (unfold v; repeat apply Rmult_integral_contrapositive_currified; auto).
  assert (N1 := eps_nz d sigma Hl). assert (N2 := eps_nz (with_eps d eps') sigma Hl'). cbn [with_eps cf_shape cf_eps] in N2. fold s in N1, N2.
  set (q1 := flux d h1) in *. set (q1' := flux (with_eps d eps') h1') in *. set (q2 := flux d h2) in *.
  set (G := fun c i j k => (eps_at s eps' c i j k - eps_at s (cf_eps d) c i j k)%C).
  assert (E' : (RtoC (cf_k0 d) * (pair s h1' j2 - pair s h1 j2))%C = vpair s (fun c i j k => G c i j k * q1' c i j k)%C q2).
  { apply (Cmul_cancel (RtoC v)); [apply k0_nz; exact Hv |].
    transitivity (RtoC (cf_k0 d) * (RtoC v * pair s h1' j2 - RtoC v * pair s h1 j2))%C; [ring |]. rewrite E.
    rewrite vpair_zz by (intros; unfold q1'; cbn [flux]; ring). unfold wpair, pair.
    match goal with |- (?a + ?b)%C = (?k * (?x + ?y))%C => transitivity (k * y + k * x)%C; [| ring] end. rewrite <- !grid_sum_scal.
    f_equal; apply grid_sum_ext; intros i j k Hin; unfold G, q1', q2, flux, uniform_dx, v; cbn [with_eps cf_shape cf_eps]; fold s.
    - change (dplus (with_eps d eps') h1' AX i j k) with (dplus d h1' AX i j k).
      assert (A1 := N1 AY i j k Hin). assert (A2 := N2 AY i j k Hin). generalize dependent (eps_at s eps' AY i j k). generalize dependent (eps_at s (cf_eps d) AY i j k). intros x Hx y Hy. replace (RtoC (h AX * h AY)) with (RtoC (h AX) * RtoC (h AY))%C by (apply C_eq; cbn [re im RtoC Cmul]; ring). field. split; auto.
    - change (dplus (with_eps d eps') h1' AY i j k) with (dplus d h1' AY i j k).
      assert (A1 := N1 AX i j k Hin). assert (A2 := N2 AX i j k Hin). generalize dependent (eps_at s eps' AX i j k). generalize dependent (eps_at s (cf_eps d) AX i j k). intros x Hx y Hy. replace (RtoC (h AX * h AY)) with (RtoC (h AX) * RtoC (h AY))%C by (apply C_eq; cbn [re im RtoC Cmul]; ring). field. split; auto. }
  rewrite E', <- move_v. set (D := fun c i j k => (G c i j k * vsub q1' q1 c i j k)%C).
  assert (E2 : (vpair s (fun c i j k => G c i j k * q1' c i j k) q2 - vpair s (fun c i j k => (eps_at s eps' c i j k - eps_at s (cf_eps d) c i j k) * q1 c i j k) q2)%C = vpair s D q2).
  { unfold vpair. match goal with |- (?a + ?b + ?c - (?a' + ?b' + ?c'))%C = _ => transitivity ((a - a') + (b - b') + (c - c'))%C; [ring |] end.
    assert (Z : forall (u u' w x : fld), (forall i j k, (u i j k - u' i j k)%C = w i j k) -> (pair s u x - pair s u' x)%C = pair s w x).
    { intros u u' w x H. unfold pair. rewrite <- grid_sum_sub. apply grid_sum_ext; intros. rewrite <- H. ring. }
    f_equal; [f_equal |]; apply Z; intros; unfold D, G, vsub, fsub; ring. }
  rewrite E2.
  assert (Dn : vnorm2 s D <= dl * vnorm2 s (vsub q1 q1')).
  { apply vnorm2_mul; auto. intros a i j k Hg. pose proof (Cn2_scaled 1 dl (eps_at s (cf_eps d) a i j k - eps_at s eps' a i j k) (vsub q1 q1' a i j k) ltac:(lra) (eps_at_close s _ _ dl He a i j k Hg)) as Q.
    replace (D a i j k) with (RtoC 1 * ((eps_at s (cf_eps d) a i j k - eps_at s eps' a i j k) * vsub q1 q1' a i j k))%C; [lra |].
    unfold D, G, vsub, fsub. apply C_eq; cbn [re im RtoC Cmul Csub]; ring. }
  destruct (tm_two d eps' sigma kappa dl _ _ _ _ Hp Hl Hl' HK He Hdl W1 W1') as (_ & B). fold s q1 q1' c in B.
  rewrite (norm2_0 s (fsub j1 j1)) in B by (intros; unfold fsub; ring).
  pose proof (flux_bound (with_eps d eps') sigma kappa j1 h1' Hp Hl' HK' W1') as Q1. fold q1' c in Q1. change (cf_shape (with_eps d eps')) with s in Q1.
  pose proof (flux_bound d sigma kappa j2 h2 Hp Hl HK W2) as Q2. fold s q2 c in Q2.
  pose proof (sqrt_pos c) as Pt. pose proof (sqrt_sqrt c Pc) as St. pose proof (sqrt_lt_R0 sigma Hs) as Pr. pose proof (sqrt_sqrt sigma ltac:(lra)) as Sr. set (r := sqrt sigma) in *. set (t := sqrt c) in *.
  assert (V1 : 0 <= vnorm2 s q1') by apply sqrt_pos. assert (V2 : 0 <= vnorm2 s q2) by apply sqrt_pos. assert (V3 : 0 <= vnorm2 s (vsub q1 q1')) by apply sqrt_pos.
  assert (P1 : 0 <= norm2 s j1) by apply sqrt_pos. assert (P2 : 0 <= norm2 s j2) by apply sqrt_pos.
  pose proof (vpair_CS s D q2) as CS.
  apply Rle_trans with (dl * vnorm2 s (vsub q1 q1') * vnorm2 s q2); [eapply Rle_trans; [exact CS |]; apply Rmult_le_compat_r; auto |].
  (* r |p| <= dl |q1'| / r, r |q1'| <= t |j1|, r |q2| <= t |j2| *)
  set (p := vnorm2 s (vsub q1 q1')) in *. set (x := vnorm2 s q1') in *. set (y := vnorm2 s q2) in *.
  assert (B1 : r * p <= dl / sigma * (t * norm2 s j1)).
  { eapply Rle_trans; [rewrite Rmult_0_r, Rplus_0_r in B; exact B |]. replace (dl * x / r) with (dl / sigma * (r * x)) by (rewrite <- Sr; field; lra).
    apply Rmult_le_compat_l; [| exact Q1]. unfold Rdiv. apply Rmult_le_pos; [lra | left; apply Rinv_0_lt_compat; lra]. }
  assert (B2 : (r * p) * (r * y) <= (dl / sigma * (t * norm2 s j1)) * (t * norm2 s j2)) by (apply Rmult_le_compat; auto; apply Rmult_le_pos; lra).
  assert (C1' : 0 <= dl / sigma) by (unfold Rdiv; apply Rmult_le_pos; [lra | left; apply Rinv_0_lt_compat; lra]).
  apply (Rmult_le_compat_l _ _ _ C1') in B2.
  replace (dl / sigma * (r * p * (r * y))) with (dl * p * y) in B2 by (rewrite <- Sr; field; lra).
  replace (dl / sigma * (dl / sigma * (t * norm2 s j1) * (t * norm2 s j2))) with (dl * dl / (sigma * sigma) * c * (norm2 s j1 * norm2 s j2)) in B2 by (rewrite <- St; field; lra).
  exact B2.
Qed.
