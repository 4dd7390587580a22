(** Proofs for C165 (2): the bounds. *)
From Coq Require Import Reals List Arith ZArith Lra Lia Bool.
From Verif Require Import Cx Arr Model_coupling Model_yee Spec_yee Model_fdfd Spec_fdfd Spec_fdtd Proof_energy Model_fdfdc Spec_fdfdc Proof_fdfdc Proof_fdfdc2 Proof_fdfdc3 Spec_fdfdst Proof_fdfdst.
Local Open Scope R_scope.

Lemma Cn2_scaled : forall k dl (z w : C), 0 <= k -> Cabs z <= dl -> Cn2 (RtoC k * (z * w))%C <= k * dl * (k * dl) * Cn2 w.
Proof.
  intros k dl z w Hk H. pose proof (Cabs_nonneg z) as Hz. assert (E : Cn2 (RtoC k * (z * w))%C = k * k * Cn2 z * Cn2 w) by (unfold Cn2; cbn [re im RtoC Cmul]; ring).
  rewrite E, <- Cabs_sq. assert (Hw : 0 <= Cn2 w) by (unfold Cn2; nra).
  apply Rmult_le_compat_r; auto. assert (Cabs z * Cabs z <= dl * dl) by (apply Rmult_le_compat; lra). assert (0 <= k * k) by nra.
  replace (k * dl * (k * dl)) with (k * k * (dl * dl)) by ring. apply Rmult_le_compat_l; auto.
Qed.
Lemma stable3 : forall d eps' sigma dl src src' res solver solver', plain_grid d -> lossy d sigma -> lossy (with_eps d eps') sigma ->
  (forall i j k, in_grid (cf_shape d) i j k -> Cabs (cf_eps d i j k - eps' i j k)%C <= dl) -> 0 <= dl ->
  near3c d solver src res -> exact3c (with_eps d eps') solver' src' ->
  cf_k0 d * sigma * vnorm2 (cf_shape d) (vsub (fst (solve3c d solver src)) (fst (solve3c (with_eps d eps') solver' src'))) <=
  vnorm2 (cf_shape d) (vsub src src') + vnorm2 (cf_shape d) res / cf_k0 d + dl / sigma * vnorm2 (cf_shape d) src'.
Proof.
  intros d eps' sigma dl src src' res solver solver' Hp Hl Hl' He Hdl Hn Hx. pose proof Hp as ((h & Hf & Hb) & Hk). set (s := cf_shape d) in *. set (k0 := cf_k0 d) in *.
  pose proof Hl as (Hs & _). set (e := fst (solve3c d solver src)). set (e' := fst (solve3c (with_eps d eps') solver' src')).
  assert (W : wave3 d (fun c => plus_res k0 (src c) (res c)) e) by (apply near3_wave; auto; unfold k0 in Hk; lra).
  assert (W0 : wave3 (with_eps d eps') src' e') by (apply exact3c_wave; exact Hx).
  pose proof (eps3_wave d eps' src' e' W0) as W'. pose proof (wave3_sub d _ _ _ _ W W') as WD.
  assert (Hb' : 0 <= k0 * sigma) by (apply Rmult_le_pos; lra).
  pose proof (w3_bound d h Hf Hb Hk sigma _ _ Hl WD) as B. fold s k0 in B. apply sqrt_bound in B; [| exact Hb' | apply vpower2_nonneg]. fold (vnorm2 s (vsub e e')) in B.
  pose proof (w3_bound (with_eps d eps') h Hf Hb Hk sigma _ _ Hl' W0) as B0. cbn [with_eps cf_shape cf_k0] in B0. fold s k0 in B0. apply sqrt_bound in B0; [| exact Hb' | apply vpower2_nonneg].
  fold (vnorm2 s e') in B0. fold (vnorm2 s src') in B0.
  eapply Rle_trans; [exact B |].
  match goal with |- sqrt (vpower2 s ?F) <= _ => set (S := F); fold (vnorm2 s S) end.
  set (T := fun c i j k => (RtoC (/ k0) * res c i j k)%C : C). set (U := fun c i j k => (RtoC k0 * ((eps_at s (cf_eps d) c i j k - eps_at s eps' c i j k) * e' c i j k))%C : C).
  assert (E1 : vnorm2 s S <= vnorm2 s (vsub src src') + vnorm2 s (fun c i j k => T c i j k + U c i j k)%C).
  { apply vnorm2_tri. intros c i j k _. unfold S, T, U, vsub, fsub, plus_res, plus_eps. fold s k0. ring. }
  assert (E2 : vnorm2 s (fun c i j k => T c i j k + U c i j k)%C <= vnorm2 s T + vnorm2 s U) by (apply vnorm2_tri; reflexivity).
  assert (E3 : vnorm2 s T = vnorm2 s res / k0).
  { rewrite (vnorm2_scal s T res (/ k0)) by reflexivity. rewrite Rabs_right by (left; apply Rinv_0_lt_compat; exact Hk). unfold Rdiv. ring. }
  assert (E4 : vnorm2 s U <= k0 * dl * vnorm2 s e').
  { apply vnorm2_mul; [apply Rmult_le_pos; lra |]. intros c i j k Hg. apply Cn2_scaled; [lra |]. apply eps_at_close; auto. }
  assert (E5 : k0 * dl * vnorm2 s e' <= dl / sigma * vnorm2 s src').
  { replace (k0 * dl * vnorm2 s e') with (dl / sigma * (k0 * sigma * vnorm2 s e')) by (field; lra). apply Rmult_le_compat_l; auto.
    unfold Rdiv. apply Rmult_le_pos; [lra | left; apply Rinv_0_lt_compat; lra]. }
  lra.
Qed.
Lemma stable_te : forall d eps' sigma dl src src' res solver solver', plain_grid d -> lossy d sigma -> lossy (with_eps d eps') sigma ->
  (forall i j k, in_grid (cf_shape d) i j k -> Cabs (cf_eps d i j k - eps' i j k)%C <= dl) -> 0 <= dl ->
  near2c d (mat_ez_c d) solver src res -> exact2c (with_eps d eps') (mat_ez_c (with_eps d eps')) solver' src' ->
  cf_k0 d * sigma * norm2 (cf_shape d) (fsub (fst (solve2_te_c d solver src) AZ) (fst (solve2_te_c (with_eps d eps') solver' src') AZ)) <=
  norm2 (cf_shape d) (fsub src src') + norm2 (cf_shape d) res / cf_k0 d + dl / sigma * norm2 (cf_shape d) src'.
Proof.
  intros d eps' sigma dl src src' res solver solver' Hp Hl Hl' He Hdl Hn Hx. pose proof Hp as ((h & Hf & Hb) & Hk). set (s := cf_shape d) in *. set (k0 := cf_k0 d) in *.
  pose proof Hl as (Hs & _). set (e := fst (solve2_te_c d solver src) AZ). set (e' := fst (solve2_te_c (with_eps d eps') solver' src') AZ).
  assert (W : wave_te d (plus_res k0 src res) e) by (apply near_te_wave; auto; unfold k0 in Hk; lra).
  assert (W0 : wave_te (with_eps d eps') src' e') by (apply exact_te_wave; exact Hx).
  pose proof (eps_te_wave d eps' src' e' W0) as W'. pose proof (wave_te_sub d _ _ _ _ W W') as WD.
  assert (Hb' : 0 <= k0 * sigma) by (apply Rmult_le_pos; lra).
  pose proof (te_bound d h Hf Hb Hk sigma _ _ Hl WD) as B. fold s k0 in B. apply sqrt_bound in B; [| exact Hb' | apply power2_nonneg]. fold (norm2 s (fsub e e')) in B.
  pose proof (te_bound (with_eps d eps') h Hf Hb Hk sigma _ _ Hl' W0) as B0. cbn [with_eps cf_shape cf_k0] in B0. fold s k0 in B0. apply sqrt_bound in B0; [| exact Hb' | apply power2_nonneg].
  fold (norm2 s e') in B0. fold (norm2 s src') in B0.
  eapply Rle_trans; [exact B |].
  match goal with |- sqrt (power2 s ?F) <= _ => set (S := F); fold (norm2 s S) end.
  set (T := fun i j k => (RtoC (/ k0) * res i j k)%C : C). set (U := fun i j k => (RtoC k0 * ((eps_at s (cf_eps d) AZ i j k - eps_at s eps' AZ i j k) * e' i j k))%C : C).
  assert (E1 : norm2 s S <= norm2 s (fsub src src') + norm2 s (fun i j k => T i j k + U i j k)%C).
  { apply norm2_tri. intros i j k _. unfold S, T, U, fsub, plus_res, plus_eps. fold s k0. ring. }
  assert (E2 : norm2 s (fun i j k => T i j k + U i j k)%C <= norm2 s T + norm2 s U) by (apply norm2_tri; reflexivity).
  assert (E3 : norm2 s T = norm2 s res / k0).
  { rewrite (norm2_scal s T res (/ k0)) by reflexivity. rewrite Rabs_right by (left; apply Rinv_0_lt_compat; exact Hk). unfold Rdiv. ring. }
  assert (E4 : norm2 s U <= k0 * dl * norm2 s e').
  { apply norm2_mul; [apply Rmult_le_pos; lra |]. intros i j k Hg. apply Cn2_scaled; [lra |]. apply eps_at_close; auto. }
  assert (E5 : k0 * dl * norm2 s e' <= dl / sigma * norm2 s src').
  { replace (k0 * dl * norm2 s e') with (dl / sigma * (k0 * sigma * norm2 s e')) by (field; lra). apply Rmult_le_compat_l; auto.
    unfold Rdiv. apply Rmult_le_pos; [lra | left; apply Rinv_0_lt_compat; lra]. }
  lra.
Qed.
Lemma stable_tm : forall d sigma kappa src src' res solver solver', plain_grid d -> lossy d sigma ->
  (forall i j k, in_grid (cf_shape d) i j k -> Rabs (re (cf_eps d i j k)) <= kappa * Rabs (im (cf_eps d i j k))) ->
  near2c d (mat_hz_c d) solver src res -> exact2c d (mat_hz_c d) solver' src' ->
  cf_k0 d * norm2 (cf_shape d) (fsub (snd (solve2_tm_c d solver src) AZ) (snd (solve2_tm_c d solver' src') AZ)) <=
  sqrt (1 + kappa * kappa) * (norm2 (cf_shape d) (fsub src src') + norm2 (cf_shape d) res / cf_k0 d).
Proof.
  intros d sigma kappa src src' res solver solver' Hp Hl HK Hn Hx. pose proof Hp as ((h & Hf & Hb) & Hk). set (s := cf_shape d) in *. set (k0 := cf_k0 d) in *.
  set (e := snd (solve2_tm_c d solver src) AZ). set (e' := snd (solve2_tm_c d solver' src') AZ).
  assert (W : wave_tm d (plus_res k0 src res) e) by (apply near_tm_wave; auto; unfold k0 in Hk; lra).
  assert (W0 : wave_tm d src' e') by (apply exact_tm_wave; exact Hx).
  pose proof (wave_tm_sub d _ _ _ _ W W0) as WD.
  pose proof (tm_bound d h Hf Hb sigma kappa _ _ Hl HK WD) as B. fold s k0 in B. apply sqrt_bound in B; [| lra | apply power2_nonneg]. fold (norm2 s (fsub e e')) in B.
  assert (P1 : 0 <= 1 + kappa * kappa) by nra. rewrite sqrt_mult_alt in B by exact P1.
  eapply Rle_trans; [exact B |]. apply Rmult_le_compat_l; [apply sqrt_pos |].
  match goal with |- sqrt (power2 s ?F) <= _ => set (S := F); fold (norm2 s S) end.
  set (T := fun i j k => (RtoC (/ k0) * res i j k)%C : C).
  assert (E1 : norm2 s S <= norm2 s (fsub src src') + norm2 s T) by (apply norm2_tri; intros i j k _; unfold S, T, fsub, plus_res; ring).
  assert (E3 : norm2 s T = norm2 s res / k0).
  { rewrite (norm2_scal s T res (/ k0)) by reflexivity. rewrite Rabs_right by (left; apply Rinv_0_lt_compat; exact Hk). unfold Rdiv. ring. }
  lra.
Qed.
