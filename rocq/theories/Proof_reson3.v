(** Proofs for C179 (3): when the systems have solutions. *)
From Coq Require Import Reals Lra Lia List Arith ZArith Bool.
From Verif Require Import Cx Arr Model_coupling Model_yee Spec_yee Proof_yee Proof_yee2 Model_fdfd Spec_fdfd Spec_fdtd Spec_disp Proof_energy Proof_nbasis4 Proof_gauss Spec_absorb Proof_absorb5
  Model_fdfdc Spec_fdfdc Proof_fdfdc Proof_fdfdc2 Proof_fdfdc3 Proof_disp2 Proof_reson Proof_reson2 Spec_reson.
Local Open Scope R_scope.

Section Box.
Variables (d : cfdfd) (w : axis -> R) (eps : C).
Hypothesis HB : filled_box d w eps.
Let s := cf_shape d.
Let k0 := cf_k0 d.
Let n := npix s.
Definition th_of (p q r : nat) : axis -> R := mode_th s (fun a => Carg (cf_bloch d a)) p q r.
Lemma th_fits : forall p q r, fits s (cf_bloch d) (th_of p q r).
Proof. intros. apply mode_fits; [apply (b_s d w eps HB) | intro a; apply (b_unit d w eps HB)]. Qed.
Lemma zero_of_modes : forall f, (forall p q r, hw d (th_of p q r) f = C0) -> same_on s f (fun _ _ _ => C0).
Proof. intros f H. apply (modes_zero s (b_s d w eps HB) (fun a => Carg (cf_bloch d a))). exact H. Qed.
Lemma eq_of_modes : forall f g, (forall p q r, hw d (th_of p q r) f = hw d (th_of p q r) g) -> same_on s f g.
Proof.
  intros f g H i j k G. assert (Z : same_on s (fun i j k => f i j k - g i j k)%C (fun _ _ _ => C0)).
  { apply zero_of_modes. intros. rewrite hw_sub, H. ring. }
  specialize (Z i j k G). cbv beta in Z. apply sub_eq in Z. rewrite Z. ring.
Qed.
Lemma cancel_l : forall a x y : C, a <> C0 -> (a * x = a * y)%C -> x = y.
Proof.
  intros a x y Ha H. replace x with (Cinv a * (a * x))%C by (field; auto). rewrite H. field. auto.
Qed.
Lemma cn2_le : forall g z, 0 <= g -> g <= Cabs z -> g * g <= Cn2 z.
Proof. intros g z Hg H. rewrite <- Cabs_sq. apply Rmult_le_compat; auto. Qed.
Section Flat.
Hypothesis Hz : s AZ = 1%nat.
Lemma te_unique : off_resonance d w eps -> forall src e e', wave_te d src e -> wave_te d src e' -> same_on s e e'.
Proof.
  intros H src e e' H1 H2. apply eq_of_modes. intros p q r. pose proof (th_fits p q r) as F. apply (cancel_l (detuning d w eps (th_of p q r))); [apply H; exact F |].
  rewrite (te_mode d w eps HB _ F src e), (te_mode d w eps HB _ F src e') by auto. reflexivity.
Qed.
Lemma te_inj : off_resonance d w eps -> injective n (mat_ez_c d).
Proof.
  intros H x Hx. assert (W : wave_te d (fun _ _ _ => C0) (unravel s x)).
  { apply sys_te. intros r Hr. rewrite Hx by auto. unfold ravel. ring. }
  assert (W0 : wave_te d (fun _ _ _ => C0) (unravel s (fun _ => C0))).
  { apply sys_te. intros r Hr. unfold matvec. rewrite Csum_0 by (intros; ring). unfold ravel. ring. }
  intros r Hr. destruct (ridx_inv s r Hr) as (i & j & k & Hg & ->). exact (te_unique H _ _ _ W W0 i j k Hg).
Qed.
Lemma te_iff : (forall src, exists solver, exact2c d (mat_ez_c d) solver src) <-> off_resonance d w eps.
Proof.
  split.
  - intros H th F Z. destruct (H (bloch_wave th)) as (solver & X). apply exact_te_wave in X.
    pose proof (te_mode d w eps HB th F _ _ Hz X) as M. rewrite Z, (hw_self d th) in M. apply (f_equal re) in M.
    pose proof (W_pos d w eps HB th) as P. pose proof (b_k d w eps HB) as K.
    cbn [re im Cmul RtoC C0] in M. pose proof (Rmult_lt_0_compat _ _ K P). lra.
  - intros H src. destruct (onto n (mat_ez_c d) (fun r => RtoC k0 * ravel s src r)%C (te_inj H)) as (x & Hx). exists (fun _ _ => x). exact Hx.
Qed.
Lemma te_gap : forall g, 0 <= g -> (forall th, fits s (cf_bloch d) th -> g <= Cabs (detuning d w eps th)) -> forall src e, wave_te d src e ->
  g * g * power2 s e <= k0 * k0 * power2 s src.
Proof.
  intros g Hg H src e X. apply (modes_bound s (b_s d w eps HB) (fun a => Carg (cf_bloch d a))). intros p q r.
  pose proof (th_fits p q r) as F. pose proof (te_mode d w eps HB _ F src e Hz X) as M. apply (f_equal Cn2) in M. rewrite !Cn2_mul, Cn2_RtoC in M.
  change (hat3 s (fun a => Carg (cf_bloch d a)) e p q r) with (hw d (th_of p q r) e).
  change (hat3 s (fun a => Carg (cf_bloch d a)) src p q r) with (hw d (th_of p q r) src). fold k0 in M. rewrite <- M.
  apply Rmult_le_compat_r; [apply Cn2_nonneg |]. apply cn2_le; auto.
Qed.
Hypothesis He : eps <> C0.
Lemma tm_unique : off_resonance d w eps -> forall src h h', wave_tm d src h -> wave_tm d src h' -> same_on s h h'.
Proof.
  intros H src h h' H1 H2. apply eq_of_modes. intros p q r. pose proof (th_fits p q r) as F. apply (cancel_l (detuning d w eps (th_of p q r))); [apply H; exact F |].
  rewrite (tm_mode d w eps HB _ F src h), (tm_mode d w eps HB _ F src h') by auto. reflexivity.
Qed.
Lemma tm_inj' : off_resonance d w eps -> injective n (mat_hz_c d).
Proof.
  intros H x Hx. assert (W : wave_tm d (fun _ _ _ => C0) (unravel s x)).
  { apply sys_tm. intros r Hr. rewrite Hx by auto. unfold ravel. ring. }
  assert (W0 : wave_tm d (fun _ _ _ => C0) (unravel s (fun _ => C0))).
  { apply sys_tm. intros r Hr. unfold matvec. rewrite Csum_0 by (intros; ring). unfold ravel. ring. }
  intros r Hr. destruct (ridx_inv s r Hr) as (i & j & k & Hg & ->). exact (tm_unique H _ _ _ W W0 i j k Hg).
Qed.
Lemma tm_iff : (forall src, exists solver, exact2c d (mat_hz_c d) solver src) <-> off_resonance d w eps.
Proof.
  split.
  - intros H th F Z. destruct (H (bloch_wave th)) as (solver & X). apply exact_tm_wave in X.
    pose proof (tm_mode d w eps HB th F _ _ Hz He X) as M. rewrite Z, (hw_self d th) in M.
    pose proof (W_pos d w eps HB th) as P. pose proof (b_k d w eps HB) as K. fold s in M.
    apply He. apply (cancel_l (RtoC (k0 * power2 s (bloch_wave th)))).
    + intro Q. apply (f_equal re) in Q. cbn [re RtoC C0] in Q. pose proof (Rmult_lt_0_compat _ _ K P) as KP. fold k0 in KP. unfold s in Q. lra.
    + fold k0 in M. rewrite RtoC_mul. transitivity (eps * (RtoC k0 * RtoC (power2 s (bloch_wave th))))%C; [ring | rewrite <- M; ring].
  - intros H src. destruct (onto n (mat_hz_c d) (fun r => RtoC k0 * ravel s src r)%C (tm_inj' H)) as (x & Hx). exists (fun _ _ => x). exact Hx.
Qed.
Lemma tm_gap : forall g, 0 <= g -> (forall th, fits s (cf_bloch d) th -> g <= Cabs (detuning d w eps th)) -> forall src h, wave_tm d src h ->
  g * g * power2 s h <= Cn2 eps * (k0 * k0) * power2 s src.
Proof.
  intros g Hg H src h X. apply (modes_bound s (b_s d w eps HB) (fun a => Carg (cf_bloch d a))). intros p q r.
  pose proof (th_fits p q r) as F. pose proof (tm_mode d w eps HB _ F src h Hz He X) as M. apply (f_equal Cn2) in M. rewrite !Cn2_mul, Cn2_RtoC in M.
  change (hat3 s (fun a => Carg (cf_bloch d a)) h p q r) with (hw d (th_of p q r) h).
  change (hat3 s (fun a => Carg (cf_bloch d a)) src p q r) with (hw d (th_of p q r) src). fold k0 in M. rewrite (Rmult_assoc (Cn2 eps)), <- M.
  apply Rmult_le_compat_r; [apply Cn2_nonneg |]. apply cn2_le; auto.
Qed.
End Flat.
(** ** Three dimensions. *)
Lemma dot_ext : forall u v e, (forall a, u a = v a) -> dot u e = dot v e.
Proof. intros u v e H. unfold dot. rewrite !H. reflexivity. Qed.
Lemma box_mode_bound : forall th g src e, fits s (cf_bloch d) th -> wave3 d src e -> g <= Cn2 (detuning d w eps th) -> g <= Cn2 (RtoC (k0 * k0) * eps)%C ->
  g * sum3 (fun c => Cn2 (hw d th (e c))) <= k0 * k0 * sum3 (fun c => Cn2 (hw d th (src c))).
Proof.
  intros th g src e F X G1 G2. apply (mode_bound (pp w th) (fun c => hw d th (e c)) (fun c => hw d th (src c)) (RtoC (k0 * k0) * eps)%C k0 g).
  - intro c. pose proof (mode3 d w eps HB th F src e X c) as M. rewrite <- (dot_ext (qq w th)); [exact M | intro a; apply (qp d w eps HB th)].
  - rewrite (p_norm d w eps HB th). exact G1.
  - exact G2.
Qed.
Lemma gap3 : forall g, 0 <= g -> g <= k0 * k0 * Cabs eps -> (forall th, fits s (cf_bloch d) th -> g <= Cabs (detuning d w eps th)) -> forall src e, wave3 d src e ->
  g * g * vpower2 s e <= k0 * k0 * vpower2 s src.
Proof.
  intros g Hg H0 H src e X. apply (modes_vbound s (b_s d w eps HB) (fun a => Carg (cf_bloch d a))). intros p q r.
  apply (box_mode_bound (th_of p q r)); [apply th_fits | exact X | apply cn2_le; auto; apply H, th_fits |].
  rewrite Cn2_mul, Cn2_RtoC, <- (Cabs_sq eps). replace (k0 * k0 * (k0 * k0) * (Cabs eps * Cabs eps)) with ((k0 * k0 * Cabs eps) * (k0 * k0 * Cabs eps)) by ring.
  apply Rmult_le_compat; auto.
Qed.
Lemma wave3_sub : forall src src' e e', wave3 d src e -> wave3 d src' e' -> wave3 d (fun c i j k => src c i j k - src' c i j k)%C (fun c i j k => e c i j k - e' c i j k)%C.
Proof.
  intros src src' e e' H1 H2.
  intros c i j k G. specialize (H1 c i j k G). specialize (H2 c i j k G).
  assert (Lp : forall f g a i j k, dplus d (fun i j k => f i j k - g i j k)%C a i j k = (dplus d f a i j k - dplus d g a i j k)%C).
  { intros. unfold dplus, fwd_quot, right_of, line. destruct (Nat.eqb _ 1); [ring |]. destruct (Nat.eqb _ _); destruct a; unfold Cdiv; ring. }
  assert (Lm : forall f g a i j k, dminus d (fun i j k => f i j k - g i j k)%C a i j k = (dminus d f a i j k - dminus d g a i j k)%C).
  { intros. unfold dminus, bwd_quot, left_of, line. destruct (Nat.eqb _ 1); [ring |]. destruct (coord _ _ _ _); destruct a; unfold Cdiv; ring. }
  assert (P : forall u v : vfld, forall c i j k, curl_of (dplus d) (fun c i j k => u c i j k - v c i j k)%C c i j k = (curl_of (dplus d) u c i j k - curl_of (dplus d) v c i j k)%C).
  { intros u v c0 i0 j0 k1. destruct c0; unfold curl_of; rewrite !Lp; ring. }
  assert (M : forall u v x : vfld, (forall c i j k, x c i j k = u c i j k - v c i j k)%C -> forall c i j k, curl_of (dminus d) x c i j k = (curl_of (dminus d) u c i j k - curl_of (dminus d) v c i j k)%C).
  { intros u v x E c0 i0 j0 k1.
    assert (Q : forall b a, dminus d (x b) a i0 j0 k1 = (dminus d (u b) a i0 j0 k1 - dminus d (v b) a i0 j0 k1)%C).
    { intros b a. rewrite <- Lm. unfold dminus, bwd_quot, left_of, line. rewrite E. destruct (Nat.eqb _ 1); [reflexivity |]. destruct (coord _ _ _ _); destruct a; rewrite E; reflexivity. }
    destruct c0; unfold curl_of; rewrite !Q; ring. }
  rewrite (M (curl_of (dplus d) e) (curl_of (dplus d) e')) by (intros; apply P). rewrite H1, H2. ring.
Qed.
Lemma unique3 : eps <> C0 -> off_resonance d w eps -> forall src e e', wave3 d src e -> wave3 d src e' -> forall c, same_on s (e c) (e' c).
Proof.
  intros He H src e e' H1 H2 c. apply eq_of_modes. intros p q r. pose proof (th_fits p q r) as F. set (th := th_of p q r) in *.
  pose proof (wave3_sub _ _ _ _ H1 H2) as X. set (g := Rmin (Cn2 (detuning d w eps th)) (Cn2 (RtoC (k0 * k0) * eps)%C)).
  assert (K : RtoC (k0 * k0) <> C0). { intro Q. apply (f_equal re) in Q. cbn [re RtoC C0] in Q. pose proof (b_k d w eps HB) as K. pose proof (Rmult_lt_0_compat _ _ K K) as KK. fold k0 in KK. lra. }
  assert (Hg : 0 < g). { apply Rmin_pos; [apply Cn2_pos, H; exact F | rewrite Cn2_mul; apply Rmult_lt_0_compat; apply Cn2_pos; auto]. }
  pose proof (box_mode_bound th g _ _ F X (Rmin_l _ _) (Rmin_r _ _)) as B.
  change (g * sum3 (fun c => Cn2 (hw d th (fun i j k => e c i j k - e' c i j k)%C)) <= k0 * k0 * sum3 (fun c => Cn2 (hw d th (fun i j k => src c i j k - src c i j k)%C))) in B.
  assert (Z : sum3 (fun c => Cn2 (hw d th (fun i j k => src c i j k - src c i j k)%C)) = 0).
  { unfold sum3. rewrite !hw_sub. unfold Cn2. cbn [re im Csub]. ring. }
  rewrite Z, Rmult_0_r in B. apply le0 in B; auto. unfold sum3 in B. rewrite !hw_sub in B.
  assert (Y : Cn2 (hw d th (e c) - hw d th (e' c))%C <= 0).
  { pose proof (Cn2_nonneg (hw d th (e AX) - hw d th (e' AX))%C). pose proof (Cn2_nonneg (hw d th (e AY) - hw d th (e' AY))%C). pose proof (Cn2_nonneg (hw d th (e AZ) - hw d th (e' AZ))%C).
    destruct c; lra. }
  apply Cn2_zero in Y. apply sub_eq in Y. rewrite Y. ring.
Qed.
Lemma inj3' : eps <> C0 -> off_resonance d w eps -> forall x, (forall c r, (r < n)%nat -> bmatvec n (mat3c d) x c r = C0) -> forall c r, (r < n)%nat -> x c r = C0.
Proof.
  intros He H x Hx. assert (W : wave3 d zero_vfld (fun c => unravel s (x c))).
  { apply sys3. intros c r Hr. rewrite Hx by auto. unfold zero_vfld, ravel. ring. }
  assert (W0 : wave3 d zero_vfld (fun c => unravel s ((fun _ _ => C0) c))).
  { apply (sys3 d (fun _ _ => C0)). intros c r Hr. unfold bmatvec, matvec. rewrite !Csum_0 by (intros; ring). unfold zero_vfld, ravel. ring. }
  intros c r Hr. destruct (ridx_inv s r Hr) as (i & j & k & Hg & ->). exact (unique3 He H _ _ _ W W0 c i j k Hg).
Qed.
Lemma iff3 : (forall src, exists solver, exact3c d solver src) <-> eps <> C0 /\ off_resonance d w eps.
Proof.
  split.
  - intros H.
    assert (G : forall th, fits s (cf_bloch d) th -> forall b : axis -> C, exists e : axis -> C,
      forall c, (pp w th c * dot (qq w th) e + RtoC (norm2 (pp w th)) * e c = RtoC (k0 * k0) * eps * e c + b c)%C).
    { intros th F b. set (N := RtoC (k0 * power2 s (bloch_wave th))).
      assert (Nz : N <> C0). { intro Q. apply (f_equal re) in Q. unfold N in Q. cbn [re RtoC C0] in Q. pose proof (Rmult_lt_0_compat _ _ (b_k d w eps HB) (W_pos d w eps HB th)) as KP. fold k0 s in KP. lra. }
      destruct (H (times (fun c => b c / N)%C (bloch_wave th))) as (solver & X). apply exact3c_wave in X.
      exists (fun c => hw d th (fst (solve3c d solver (times (fun c => b c / N)%C (bloch_wave th))) c)). intro c.
      pose proof (mode3 d w eps HB th F _ _ X c) as M. rewrite M. f_equal. unfold times. rewrite hw_scal, hw_self. fold k0 s.
      transitivity (b c / N * N)%C; [unfold N; rewrite RtoC_mul; ring | field; auto]. }
    assert (Dt : forall p q e : axis -> C, dot q (fun c => p c * dot q e)%C = (dot q p * dot q e)%C) by (intros; unfold dot; ring).
    assert (PQ : forall th, dot (qq w th) (pp w th) = (- RtoC (norm2 (pp w th)))%C).
    { intro th. rewrite (p_norm d w eps HB th). pose proof (pq_sum w th (b_wn d w eps HB)) as P. unfold dot. rewrite P, RtoC_opp. reflexivity. }
    assert (L : forall th, fits s (cf_bloch d) th -> forall b : axis -> C, exists e : axis -> C,
      (forall c, (pp w th c * dot (qq w th) e + RtoC (norm2 (pp w th)) * e c = RtoC (k0 * k0) * eps * e c + b c)%C) /\
      (- (RtoC (k0 * k0) * eps * dot (qq w th) e) = dot (qq w th) b)%C).
    { intros th F b. destruct (G th F b) as (e & E). exists e. split; [exact E |].
      assert (S : (dot (qq w th) (pp w th) * dot (qq w th) e + RtoC (norm2 (pp w th)) * dot (qq w th) e = RtoC (k0 * k0) * eps * dot (qq w th) e + dot (qq w th) b)%C).
      { transitivity (qq w th AX * (pp w th AX * dot (qq w th) e + RtoC (norm2 (pp w th)) * e AX) + qq w th AY * (pp w th AY * dot (qq w th) e + RtoC (norm2 (pp w th)) * e AY) +
          qq w th AZ * (pp w th AZ * dot (qq w th) e + RtoC (norm2 (pp w th)) * e AZ))%C; [unfold dot; ring |]. rewrite !E. unfold dot. ring. }
      rewrite PQ in S. assert (S2 : (dot (qq w th) b = - RtoC (norm2 (pp w th)) * dot (qq w th) e + RtoC (norm2 (pp w th)) * dot (qq w th) e - RtoC (k0 * k0) * eps * dot (qq w th) e)%C) by (rewrite S; ring).
      rewrite S2. ring. }
    assert (One : forall p : axis -> C, (p = fun a => p a) -> exists b : axis -> C, dot p b = C0 /\ exists a, b a <> C0).
    { intros p _. destruct (Cn2_nonneg (p AX)) as [PX | PX].
      - exists (fun c => match c with AX => - p AY | AY => p AX | AZ => C0 end)%C. split; [unfold dot; ring | exists AY]. intro Q. rewrite Q in PX. unfold Cn2 in PX. cbn [re im C0] in PX. lra.
      - exists (fun c => match c with AX => C1 | _ => C0 end). split; [| exists AX; intro Q; apply (f_equal re) in Q; cbn in Q; lra].
        assert (Z : p AX = C0) by (apply Cn2_zero; lra). unfold dot. rewrite Z. ring. }
    split.
    + intros E0. pose proof (th_fits 0 0 0) as F. set (th := th_of 0 0 0) in *.
      destruct (Rle_lt_dec (norm2 (pp w th)) 0) as [Z | Z].
      * destruct (L th F (fun _ => C1)) as (e & E & _).
        assert (PZ : forall a, pp w th a = C0).
        { intro a. apply Cn2_zero. unfold norm2, sum3 in Z. pose proof (Cn2_nonneg (pp w th AX)). pose proof (Cn2_nonneg (pp w th AY)). pose proof (Cn2_nonneg (pp w th AZ)). destruct a; lra. }
        specialize (E AX). rewrite E0, PZ in E. assert (N0 : norm2 (pp w th) = 0) by (unfold norm2, sum3; rewrite !PZ; unfold Cn2; cbn [re im C0]; ring). rewrite N0 in E.
        apply (f_equal re) in E. cbn [re im Cadd Cmul RtoC C0 C1] in E. lra.
      * destruct (L th F (pp w th)) as (e & _ & E). rewrite PQ, E0 in E. apply (f_equal re) in E. cbn [re im Copp Cmul RtoC C0] in E. lra.
    + intros th F Z. destruct (One (qq w th) eq_refl) as (b & B1 & a & B2). destruct (L th F b) as (e & E & E2). rewrite B1 in E2.
      unfold detuning in Z. fold k0 in Z. assert (Z2 : RtoC (norm2 (pp w th)) = (RtoC (k0 * k0) * eps)%C) by (rewrite (p_norm d w eps HB th); apply sub_eq in Z; rewrite Z; ring).
      specialize (E a). rewrite Z2 in E.
      assert (E3 : (b a = pp w th a * dot (qq w th) e)%C).
      { transitivity ((RtoC (k0 * k0) * eps * e a + b a) - RtoC (k0 * k0) * eps * e a)%C; [ring | rewrite <- E; ring]. }
      apply B2. destruct (Rle_lt_dec (norm2 (pp w th)) 0) as [N | N].
      * assert (PZ : pp w th a = C0).
        { apply Cn2_zero. unfold norm2, sum3 in N. pose proof (Cn2_nonneg (pp w th AX)). pose proof (Cn2_nonneg (pp w th AY)). pose proof (Cn2_nonneg (pp w th AZ)). destruct a; lra. }
        rewrite E3, PZ. ring.
      * assert (D0 : dot (qq w th) e = C0).
        { apply (cancel_l (RtoC (norm2 (pp w th)))); [intro Q; apply (f_equal re) in Q; cbn [re RtoC C0] in Q; lra |]. rewrite Z2.
          transitivity (- - (RtoC (k0 * k0) * eps * dot (qq w th) e))%C; [ring | rewrite E2; ring]. }
        rewrite E3, D0. ring.
  - intros (He & H) src. destruct (block_onto d (mat3c d) (fun c r => RtoC k0 * ravel s (src c) r)%C (inj3' He H)) as (x & Hx). exists (fun _ _ => x). exact Hx.
Qed.
End Box.
(** ** A row of n cells. *)
From Verif Require Import Model_fdtd Spec_conv Spec_fdfdcv.
Lemma row_box : forall n u k0 eps, (1 <= n)%nat -> 0 < u -> 0 < k0 -> filled_box (fdfd_on (row n u) k0 (fun _ _ _ => eps)) (width (row n u)) eps.
Proof.
  intros n u k0 eps Hn Hu Hk. unfold filled_box, fdfd_on. cbn [cf_shape cf_dxf cf_dxb cf_bloch cf_k0 cf_eps].
  split; [intro a; destruct a; cbn [row g_shape]; lia |]. split; [intro a; unfold width, row; cbn [g_spacing g_shape]; try destruct (is_active _ _); lra |].
  split; [reflexivity |]. split; [reflexivity |]. split; [exact Hk |]. split; [intro; unfold Cn2; cbn; ring |]. split; reflexivity.
Qed.
Lemma row_th : forall n u th, (1 <= n)%nat -> fits (g_shape (row n u)) (fun _ => C1) th -> sin (th AY / 2) = 0 /\ sin (th AZ / 2) = 0.
Proof.
  intros n u th Hn F. assert (Q : forall a, g_shape (row n u) a = 1%nat -> sin (th a / 2) = 0).
  { intros a E. specialize (F a). rewrite E in F. simpl (INR 1) in F. rewrite Rmult_1_r in F. apply (f_equal re) in F. cbn [re cis C1] in F.
    pose proof (cos_2a_sin (th a / 2)) as D. replace (2 * (th a / 2)) with (th a) in D by lra.
    assert (sin (th a / 2) * sin (th a / 2) = 0) as Z by lra. apply Rmult_integral in Z. tauto. }
  split; apply Q; reflexivity.
Qed.
Lemma row_k2 : forall n u th, (1 <= n)%nat -> 0 < u -> fits (g_shape (row n u)) (fun _ => C1) th -> wave_k2 (width (row n u)) th = (2 * sin (th AX / 2) / width (row n u) AX) ^ 2.
Proof. intros n u th Hn Hu F. destruct (row_th n u th Hn F) as (Y & Z). unfold wave_k2, sum3. rewrite Y, Z. unfold Rdiv. ring. Qed.

Lemma row_resonant : forall n u, (2 <= n)%nat -> 0 < u -> 0 < 2 * sin (PI / INR n) / u /\
  ~ off_resonance (fdfd_on (row n u) (2 * sin (PI / INR n) / u) (fun _ _ _ => C1)) (width (row n u)) C1.
Proof.
  intros n u Hn Hu. assert (N : 0 < INR n) by (apply lt_0_INR; lia). assert (N1 : 1 < INR n) by (apply (lt_INR 1); lia). pose proof PI_RGT_0 as P.
  assert (S : 0 < sin (PI / INR n)).
  { apply sin_gt_0; [apply Rdiv_lt_0_compat; lra |]. apply Rmult_lt_reg_r with (INR n); auto. unfold Rdiv. rewrite Rmult_assoc, Rinv_l by lra. nra. }
  split; [apply Rdiv_lt_0_compat; lra |]. intro H. set (th := fun a => match a with AX => 2 * PI / INR n | _ => 0 end).
  assert (F : fits (g_shape (row n u)) (fun _ => C1) th).
  { intro a. destruct a; unfold th, row; cbn [g_shape]; try (rewrite Rmult_0_l; apply cis_0).
    replace (2 * PI / INR n * INR n) with (2 * PI) by (field; lra). unfold cis. rewrite cos_2PI, sin_2PI. reflexivity. }
  apply (H th F). unfold detuning, fdfd_on. cbn [cf_k0]. rewrite (row_k2 n u th) by (auto; lia). unfold th.
  assert (W : width (row n u) AX = u).
  { unfold width. replace (is_active (row n u) AX) with true; [reflexivity |]. unfold is_active, row. cbn [g_shape]. symmetry. 
    destruct n as [| [| n]]; [lia | lia | reflexivity]. }
  rewrite W. replace (2 * PI / INR n / 2) with (PI / INR n) by (field; lra). rewrite RtoC_mul. replace ((2 * sin (PI / INR n) / u) ^ 2) with ((2 * sin (PI / INR n) / u) * (2 * sin (PI / INR n) / u)) by ring. rewrite RtoC_mul. ring.
Qed.
Lemma row_far : forall n u, (2 <= n)%nat -> 0 < u -> forall th, fits (g_shape (row n u)) (fun _ => C1) th ->
  5 / (u * u) <= Cabs (detuning (fdfd_on (row n u) (3 / u) (fun _ _ _ => C1)) (width (row n u)) C1 th).
Proof.
  intros n u Hn Hu th F. unfold detuning, fdfd_on. cbn [cf_k0]. rewrite (row_k2 n u th) by (auto; lia).
  assert (W : width (row n u) AX = u).
  { unfold width. replace (is_active (row n u) AX) with true; [reflexivity |]. unfold is_active, row. cbn [g_shape]. symmetry. 
    destruct n as [| [| n]]; [lia | lia | reflexivity]. }
  rewrite W. set (x := sin (th AX / 2)). assert (X : x * x <= 1). { pose proof (SIN_bound (th AX / 2)) as B. fold x in B. nra. }
  replace (RtoC ((2 * x / u) ^ 2) - RtoC (3 / u * (3 / u)) * C1)%C with (RtoC ((4 * (x * x) - 9) / (u * u))).
  - assert (P : 0 < / (u * u)) by (apply Rinv_0_lt_compat; nra). replace ((4 * (x * x) - 9) / (u * u)) with (- ((9 - 4 * (x * x)) / (u * u))) by (field; lra).
    assert (Y : 0 <= (9 - 4 * (x * x)) / (u * u)) by (unfold Rdiv; apply Rmult_le_pos; lra).
    unfold Cabs. rewrite Cn2_RtoC, Rmult_opp_opp, sqrt_square by exact Y. unfold Rdiv. apply Rmult_le_compat_r; lra.
  - apply C_eq; cbn [re im RtoC Csub Cmul C1]; field; lra.
Qed.
Lemma row_no_solution : forall n u, (2 <= n)%nat -> 0 < u -> let d := fdfd_on (row n u) (2 * sin (PI / INR n) / u) (fun _ _ _ => C1) in
  0 < cf_k0 d /\ (~ forall src, exists solver, exact2c d (mat_ez_c d) solver src) /\ (~ forall src, exists solver, exact2c d (mat_hz_c d) solver src) /\
  (~ forall src, exists solver, exact3c d solver src).
Proof.
  intros n u Hn Hu d. destruct (row_resonant n u Hn Hu) as (Kp & N). pose proof (row_box n u _ C1 ltac:(lia) Hu Kp) as HB. fold d in HB, N.
  assert (N1 : C1 <> C0) by (intro Q; apply (f_equal re) in Q; cbn in Q; lra).
  split; [exact Kp |]. split; [| split]; intro H; apply N.
  - apply (te_iff d _ _ HB eq_refl). exact H.
  - apply (tm_iff d _ _ HB eq_refl N1). exact H.
  - apply (iff3 d _ _ HB). exact H.
Qed.
Lemma row_filled : forall n u, (2 <= n)%nat -> 0 < u -> let d := fdfd_on (row n u) (3 / u) (fun _ _ _ => C1) in
  filled_box d (width (row n u)) C1 /\ 0 < 5 / (u * u) /\ (forall th, fits (cf_shape d) (cf_bloch d) th -> 5 / (u * u) <= Cabs (detuning d (width (row n u)) C1 th)) /\
  exists th, fits (cf_shape d) (cf_bloch d) th.
Proof.
  intros n u Hn Hu d. split; [apply row_box; [lia | exact Hu | apply Rdiv_lt_0_compat; lra] |]. split; [apply Rdiv_lt_0_compat; nra |].
  split; [exact (row_far n u Hn Hu) |]. exists (fun _ => 0). intro a. rewrite Rmult_0_l. apply cis_0.
Qed.
