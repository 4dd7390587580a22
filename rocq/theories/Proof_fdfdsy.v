(** Proofs for C166 (1): reciprocity with a complex permittivity. *)
From Coq Require Import Reals List Arith ZArith Lra Lia Bool.
From Verif Require Import Cx Arr Model_coupling Model_yee Spec_yee Proof_yee Proof_yee2 Proof_yee3 Model_fdfd Spec_fdfd Proof_fdfd Proof_fdfd2 Proof_fdfd3 Proof_fdfd4
  Model_fdfdc Spec_fdfdc Proof_fdfdc Proof_fdfdc3.
Local Open Scope R_scope.

(** The wave equations with the grid's own difference functions (Bloch phase 1). *)
Section D.
Variable d : cfdfd.
Hypothesis Hb : cf_bloch d = (fun _ => C1).
Lemma dplus_fn : forall f a i j k, in_grid (cf_shape d) i j k -> dplus d f a i j k = diff_fn (cf_shape d) (cf_dxf d) false f a i j k.
Proof. intros. unfold dplus. rewrite Hb. rewrite <- quot_diff by auto. reflexivity. Qed.
Lemma dminus_fn : forall f a i j k, in_grid (cf_shape d) i j k -> dminus d f a i j k = diff_fn (cf_shape d) (cf_dxb d) true f a i j k.
Proof. intros. unfold dminus. rewrite Hb. rewrite <- quot_diff by auto. reflexivity. Qed.
Definition cop3 (e : vfld) : vfld := curl_fn (diff_fn (cf_shape d) (cf_dxb d) true) (curl_fn (diff_fn (cf_shape d) (cf_dxf d) false) e).
Lemma curl_curl_fn : forall e c i j k, in_grid (cf_shape d) i j k -> curl_of (dminus d) (curl_of (dplus d) e) c i j k = cop3 e c i j k.
Proof.
  intros e c i j k H. unfold cop3.
  rewrite (curl_ext (cf_shape d) (cf_dxb d) true _ (curl_of (dplus d) e)).
  - unfold curl_of at 1, curl_fn. destruct c; rewrite !dminus_fn by auto; reflexivity.
  - intros. unfold curl_of, curl_fn. destruct c0; rewrite !dplus_fn by auto; reflexivity.
  - exact H.
Qed.
Lemma wave3_fn : forall src e, wave3 d src e <-> forall c i j k, in_grid (cf_shape d) i j k ->
  cop3 e c i j k = (RtoC (cf_k0 d * cf_k0 d) * cf_eps_t d c i j k * e c i j k + RtoC (cf_k0 d) * src c i j k)%C.
Proof.
  intros src e. unfold wave3, cf_eps_t. split; intros H c i j k Hg; specialize (H c i j k Hg).
  - rewrite <- curl_curl_fn, eps_at_ok by auto. exact H.
  - rewrite curl_curl_fn, <- eps_at_ok by auto. exact H.
Qed.
(** 2-D: - D((t1) D u) - D((t2) D u) = q u + k0 j. *)
Definition cop2 (t1 t2 u : fld) : fld := fun i j k =>
  (- diff_fn (cf_shape d) (cf_dxb d) true (fun i j k => t1 i j k * diff_fn (cf_shape d) (cf_dxf d) false u AX i j k)%C AX i j k
   - diff_fn (cf_shape d) (cf_dxb d) true (fun i j k => t2 i j k * diff_fn (cf_shape d) (cf_dxf d) false u AY i j k)%C AY i j k)%C.
Lemma wave_te_fn : forall src e, wave_te d src e <-> forall i j k, in_grid (cf_shape d) i j k ->
  cop2 (fun _ _ _ => C1) (fun _ _ _ => C1) e i j k = (RtoC (cf_k0 d * cf_k0 d) * cf_eps_t d AZ i j k * e i j k + RtoC (cf_k0 d) * src i j k)%C.
Proof.
  intros src e.
  assert (E : forall i j k, in_grid (cf_shape d) i j k -> cop2 (fun _ _ _ => C1) (fun _ _ _ => C1) e i j k = (- dminus d (dplus d e AX) AX i j k - dminus d (dplus d e AY) AY i j k)%C).
  { intros i j k H. unfold cop2. rewrite !dminus_fn by auto.
    rewrite !(diff_ext (cf_shape d) (cf_dxb d) true (fun i j k => C1 * diff_fn (cf_shape d) (cf_dxf d) false e _ i j k)%C (dplus d e _)) by (intros; auto; rewrite dplus_fn by auto; ring). reflexivity. }
  unfold wave_te, cf_eps_t. split; intros H i j k Hg; specialize (H i j k Hg).
  - rewrite E, eps_at_ok by auto. exact H.
  - rewrite <- E, <- eps_at_ok by auto. exact H.
Qed.
Lemma wave_tm_fn : forall src u, wave_tm d src u <-> forall i j k, in_grid (cf_shape d) i j k ->
  cop2 (fun i j k => C1 / cf_eps_t d AY i j k)%C (fun i j k => C1 / cf_eps_t d AX i j k)%C u i j k = (RtoC (cf_k0 d * cf_k0 d) * u i j k + RtoC (cf_k0 d) * src i j k)%C.
Proof.
  intros src e.
  assert (E : forall i j k, in_grid (cf_shape d) i j k -> cop2 (fun i j k => C1 / cf_eps_t d AY i j k)%C (fun i j k => C1 / cf_eps_t d AX i j k)%C e i j k =
    (- dminus d (fun i j k => dplus d e AX i j k / eps_at (cf_shape d) (cf_eps d) AY i j k)%C AX i j k - dminus d (fun i j k => dplus d e AY i j k / eps_at (cf_shape d) (cf_eps d) AX i j k)%C AY i j k)%C).
  { intros i j k H. unfold cop2. rewrite !dminus_fn by auto.
    rewrite (diff_ext (cf_shape d) (cf_dxb d) true (fun i j k => C1 / cf_eps_t d AY i j k * diff_fn (cf_shape d) (cf_dxf d) false e AX i j k)%C
      (fun i j k => dplus d e AX i j k / eps_at (cf_shape d) (cf_eps d) AY i j k)%C AX) by (intros; auto; unfold cf_eps_t; rewrite dplus_fn, eps_at_ok by auto; unfold Cdiv; ring).
    rewrite (diff_ext (cf_shape d) (cf_dxb d) true (fun i j k => C1 / cf_eps_t d AX i j k * diff_fn (cf_shape d) (cf_dxf d) false e AY i j k)%C
      (fun i j k => dplus d e AY i j k / eps_at (cf_shape d) (cf_eps d) AX i j k)%C AY) by (intros; auto; unfold cf_eps_t; rewrite dplus_fn, eps_at_ok by auto; unfold Cdiv; ring).
    reflexivity. }
  unfold wave_tm. split; intros H i j k Hg; specialize (H i j k Hg).
  - rewrite E by auto. exact H.
  - rewrite <- E by auto. exact H.
Qed.
(** Both operators are symmetric for the area / volume weighted pairing. *)
Hypothesis Hf : nz_pixel (cf_shape d) (cf_dxf d).
Hypothesis Hbb : nz_pixel (cf_shape d) (cf_dxb d).
Lemma cop3_sym : forall u v, wvpair (cf_shape d) (vol_e (cf_dxf d) (cf_dxb d)) (cop3 u) v = wvpair (cf_shape d) (vol_e (cf_dxf d) (cf_dxb d)) (cop3 v) u.
Proof. intros. unfold cop3. rewrite !curl_transpose by auto. apply wvpair_sym. Qed.
Lemma cop2_form : forall t1 t2 u v, wpair (cf_shape d) (area (cf_dxb d)) (cop2 t1 t2 u) v =
  (grid_sum (cf_shape d) (fun i j k => cf_dxf d AX i * cf_dxb d AY j * (t1 i j k * diff_fn (cf_shape d) (cf_dxf d) false u AX i j k) * diff_fn (cf_shape d) (cf_dxf d) false v AX i j k) +
   grid_sum (cf_shape d) (fun i j k => cf_dxf d AY j * cf_dxb d AX i * (t2 i j k * diff_fn (cf_shape d) (cf_dxf d) false u AY i j k) * diff_fn (cf_shape d) (cf_dxf d) false v AY i j k))%C.
Proof.
  intros t1 t2 u v. unfold cop2, wpair. set (s := cf_shape d) in *. set (F := cf_dxf d) in *. set (B := cf_dxb d) in *.
  pose proof (wparts s AX F B (fun i j k => B AY j) (fun i j k => t1 i j k * diff_fn s F false u AX i j k)%C v Hf Hbb (fun _ _ _ => eq_refl)) as E1.
  pose proof (wparts s AY F B (fun i j k => B AX i) (fun i j k => t2 i j k * diff_fn s F false u AY i j k)%C v Hf Hbb (fun _ _ _ => eq_refl)) as E2.
  cbn [coord] in *.
  rewrite (grid_sum_ext s _ (fun i j k =>
    (- C1) * (B AX i * B AY j * diff_fn s B true (fun i j k => t1 i j k * diff_fn s F false u AX i j k)%C AX i j k * v i j k) +
    (- C1) * (B AY j * B AX i * diff_fn s B true (fun i j k => t2 i j k * diff_fn s F false u AY i j k)%C AY i j k * v i j k))%C) by (intros; unfold area; ring).
  rewrite grid_sum_add, !grid_sum_scal, E1, E2. ring.
Qed.
Lemma cop2_sym : forall t1 t2 u v, wpair (cf_shape d) (area (cf_dxb d)) (cop2 t1 t2 u) v = wpair (cf_shape d) (area (cf_dxb d)) (cop2 t1 t2 v) u.
Proof. intros. rewrite !cop2_form. f_equal; apply grid_sum_ext; intros; ring. Qed.
End D.
Lemma k0_nz : forall k, k <> 0 -> RtoC k <> C0.
Proof. intros k Hk A. apply Hk. exact (f_equal re A). Qed.
Lemma recip3 : forall d solver solver' j1 j2, cf_bloch d = (fun _ => C1) -> cf_k0 d <> 0 -> nz_pixel (cf_shape d) (cf_dxf d) -> nz_pixel (cf_shape d) (cf_dxb d) ->
  exact3c d solver j1 -> exact3c d solver' j2 ->
  wvpair (cf_shape d) (vol_e (cf_dxf d) (cf_dxb d)) (fst (solve3c d solver j1)) j2 = wvpair (cf_shape d) (vol_e (cf_dxf d) (cf_dxb d)) (fst (solve3c d solver' j2)) j1.
Proof.
  intros d solver solver' j1 j2 Hb Hk Hf Hbb H1 H2. apply exact3c_wave in H1; pose proof (proj1 (wave3_fn d Hb _ _) H1) as H1x; clear H1; rename H1x into H1. apply exact3c_wave in H2; pose proof (proj1 (wave3_fn d Hb _ _) H2) as H2x; clear H2; rename H2x into H2.
  set (e1 := fst (solve3c d solver j1)) in *. set (e2 := fst (solve3c d solver' j2)) in *. set (W := vol_e (cf_dxf d) (cf_dxb d)). set (s := cf_shape d) in *.
  apply (Cmul_cancel (RtoC (cf_k0 d))); [apply k0_nz; exact Hk |].
  rewrite (wvpair_sym s W e1 j2), (wvpair_sym s W e2 j1), <- !wvpair_scal.
  rewrite (wvpair_ext s W (fun a i j k => RtoC (cf_k0 d) * j2 a i j k)%C e1 (fun c i j k => cop3 d e2 c i j k - RtoC (cf_k0 d * cf_k0 d) * cf_eps_t d c i j k * e2 c i j k)%C e1)
    by (intros; auto; rewrite H2 by auto; ring).
  rewrite (wvpair_ext s W (fun a i j k => RtoC (cf_k0 d) * j1 a i j k)%C e2 (fun c i j k => cop3 d e1 c i j k - RtoC (cf_k0 d * cf_k0 d) * cf_eps_t d c i j k * e1 c i j k)%C e2)
    by (intros; auto; rewrite H1 by auto; ring).
  rewrite (wvpair_sub s W (cop3 d e2) (fun c i j k => RtoC (cf_k0 d * cf_k0 d) * cf_eps_t d c i j k * e2 c i j k)%C).
  rewrite (wvpair_sub s W (cop3 d e1) (fun c i j k => RtoC (cf_k0 d * cf_k0 d) * cf_eps_t d c i j k * e1 c i j k)%C).
  pose proof (cop3_sym d Hf Hbb e1 e2) as Q. fold s W in Q. rewrite Q.
  f_equal. unfold wvpair, wpair. f_equal; [f_equal |]; apply grid_sum_ext; intros; ring.
Qed.
Lemma recip2 : forall d t1 t2 (q : fld) u1 u2 j1 j2, cf_k0 d <> 0 -> nz_pixel (cf_shape d) (cf_dxf d) -> nz_pixel (cf_shape d) (cf_dxb d) ->
  (forall i j k, in_grid (cf_shape d) i j k -> cop2 d t1 t2 u1 i j k = (q i j k * u1 i j k + RtoC (cf_k0 d) * j1 i j k)%C) ->
  (forall i j k, in_grid (cf_shape d) i j k -> cop2 d t1 t2 u2 i j k = (q i j k * u2 i j k + RtoC (cf_k0 d) * j2 i j k)%C) ->
  wpair (cf_shape d) (area (cf_dxb d)) u1 j2 = wpair (cf_shape d) (area (cf_dxb d)) u2 j1.
Proof.
  intros d t1 t2 q u1 u2 j1 j2 Hk Hf Hbb H1 H2. set (W := area (cf_dxb d)). set (s := cf_shape d) in *.
  apply (Cmul_cancel (RtoC (cf_k0 d))); [apply k0_nz; exact Hk |].
  rewrite (wpair_sym s W u1 j2), (wpair_sym s W u2 j1), <- !wpair_scal.
  rewrite (wpair_ext s W (fun i j k => RtoC (cf_k0 d) * j2 i j k)%C u1 (fun i j k => cop2 d t1 t2 u2 i j k - q i j k * u2 i j k)%C u1) by (intros; auto; rewrite H2 by auto; ring).
  rewrite (wpair_ext s W (fun i j k => RtoC (cf_k0 d) * j1 i j k)%C u2 (fun i j k => cop2 d t1 t2 u1 i j k - q i j k * u1 i j k)%C u2) by (intros; auto; rewrite H1 by auto; ring).
  rewrite !(wpair_sub s W). pose proof (cop2_sym d Hf Hbb t1 t2 u1 u2) as Q. fold s W in Q.
  f_equal; [symmetry; exact Q |]. unfold wpair. apply grid_sum_ext; intros; ring.
Qed.
Lemma recip_te : forall d solver solver' j1 j2, cf_bloch d = (fun _ => C1) -> cf_k0 d <> 0 -> nz_pixel (cf_shape d) (cf_dxf d) -> nz_pixel (cf_shape d) (cf_dxb d) ->
  exact2c d (mat_ez_c d) solver j1 -> exact2c d (mat_ez_c d) solver' j2 ->
  wpair (cf_shape d) (area (cf_dxb d)) (fst (solve2_te_c d solver j1) AZ) j2 = wpair (cf_shape d) (area (cf_dxb d)) (fst (solve2_te_c d solver' j2) AZ) j1.
Proof.
  intros d solver solver' j1 j2 Hb Hk Hf Hbb H1 H2. apply exact_te_wave in H1; pose proof (proj1 (wave_te_fn d Hb _ _) H1) as H1x; clear H1; rename H1x into H1. apply exact_te_wave in H2; pose proof (proj1 (wave_te_fn d Hb _ _) H2) as H2x; clear H2; rename H2x into H2.
  eapply recip2; [exact Hk | exact Hf | exact Hbb | exact H1 | exact H2].
Qed.
Lemma recip_tm : forall d solver solver' j1 j2, cf_bloch d = (fun _ => C1) -> cf_k0 d <> 0 -> nz_pixel (cf_shape d) (cf_dxf d) -> nz_pixel (cf_shape d) (cf_dxb d) ->
  exact2c d (mat_hz_c d) solver j1 -> exact2c d (mat_hz_c d) solver' j2 ->
  wpair (cf_shape d) (area (cf_dxb d)) (snd (solve2_tm_c d solver j1) AZ) j2 = wpair (cf_shape d) (area (cf_dxb d)) (snd (solve2_tm_c d solver' j2) AZ) j1.
Proof.
  intros d solver solver' j1 j2 Hb Hk Hf Hbb H1 H2. apply exact_tm_wave in H1; pose proof (proj1 (wave_tm_fn d Hb _ _) H1) as H1x; clear H1; rename H1x into H1. apply exact_tm_wave in H2; pose proof (proj1 (wave_tm_fn d Hb _ _) H2) as H2x; clear H2; rename H2x into H2.
  refine (recip2 d _ _ (fun _ _ _ => RtoC (cf_k0 d * cf_k0 d)) _ _ _ _ Hk Hf Hbb H1 H2).
Qed.
