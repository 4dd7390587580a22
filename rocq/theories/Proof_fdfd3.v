(** Reciprocity of the FDFD operators, PML included. *)
From Coq Require Import Reals List Arith ZArith Lra Lia Bool.
From Verif Require Import Cx Arr Model_coupling Model_yee Spec_yee Proof_yee Proof_yee2 Proof_yee3 Model_fdfd Spec_fdfd Proof_fdfd Proof_fdfd2.
Local Open Scope R_scope.

(** Summation by parts against a weight that is constant along the axis. *)
Lemma parts : forall s a (w f g : fld), (forall i j k, roll_m1 s a w i j k = w i j k) ->
  grid_sum s (fun i j k => w i j k * (f i j k - roll_p1 s a f i j k) * g i j k)%C =
  (- grid_sum s (fun i j k => w i j k * f i j k * (roll_m1 s a g i j k - g i j k)))%C.
Proof.
  intros s a w f g Hw.
  assert (E : grid_sum s (fun i j k => w i j k * roll_p1 s a f i j k * g i j k)%C =
              grid_sum s (fun i j k => w i j k * f i j k * roll_m1 s a g i j k)%C).
  { rewrite <- (grid_sum_nxt s a (fun i j k => w i j k * roll_p1 s a f i j k * g i j k)%C).
    apply grid_sum_ext; intros i j k H.
    assert (E1 : roll_m1 s a (fun i j k => w i j k * roll_p1 s a f i j k * g i j k)%C i j k =
      (roll_m1 s a w i j k * roll_m1 s a (roll_p1 s a f) i j k * roll_m1 s a g i j k)%C) by (unfold roll_m1, along; destruct a; reflexivity).
    rewrite E1, Hw, roll_inv by auto. reflexivity. }
  rewrite (grid_sum_ext s _ (fun i j k => w i j k * f i j k * g i j k - w i j k * roll_p1 s a f i j k * g i j k)%C) by (intros; ring).
  rewrite (grid_sum_ext s (fun i j k => w i j k * f i j k * (roll_m1 s a g i j k - g i j k))%C
             (fun i j k => w i j k * f i j k * roll_m1 s a g i j k - w i j k * f i j k * g i j k)%C) by (intros; ring).
  rewrite !grid_sum_sub, E. ring.
Qed.
(** <D_b f, g> weighted by b_a w = - <f, D_f g> weighted by f_a w. *)
Lemma wparts : forall s a dxf dxb (w f g : fld), nz_pixel s dxf -> nz_pixel s dxb ->
  (forall i j k, roll_m1 s a w i j k = w i j k) ->
  grid_sum s (fun i j k => dxb a (coord a i j k) * w i j k * diff_fn s dxb true f a i j k * g i j k)%C =
  (- grid_sum s (fun i j k => dxf a (coord a i j k) * w i j k * f i j k * diff_fn s dxf false g a i j k))%C.
Proof.
  intros s a dxf dxb w f g Hf Hb Hw.
  assert (Hin : forall i j k, in_grid s i j k -> (coord a i j k < s a)%nat) by (intros i j k (? & ? & ?); destruct a; auto).
  rewrite (grid_sum_ext s _ (fun i j k => w i j k * (f i j k - roll_p1 s a f i j k) * g i j k)%C).
  2:{ intros i j k H. unfold diff_fn. field. apply Hb, Hin, H. }
  rewrite (grid_sum_ext s (fun i j k => dxf a (coord a i j k) * w i j k * f i j k * diff_fn s dxf false g a i j k)%C
             (fun i j k => w i j k * f i j k * (roll_m1 s a g i j k - g i j k))%C).
  2:{ intros i j k H. unfold diff_fn. field. apply Hf, Hin, H. }
  apply parts. exact Hw.
Qed.
(** The two discrete curls are transposes of each other for the volume-weighted pairings. *)
Lemma curl_transpose : forall s dxf dxb (h e : vfld), nz_pixel s dxf -> nz_pixel s dxb ->
  wvpair s (vol_e dxf dxb) (curl_fn (diff_fn s dxb true) h) e = wvpair s (vol_h dxf dxb) h (curl_fn (diff_fn s dxf false) e).
Proof.
  intros s dxf dxb h e Hf Hb.
  pose proof (wparts s AY dxf dxb (fun i j k => dxf AX i * dxb AZ k)%C (h AZ) (e AX) Hf Hb (fun _ _ _ => eq_refl)) as E1.
  pose proof (wparts s AZ dxf dxb (fun i j k => dxf AX i * dxb AY j)%C (h AY) (e AX) Hf Hb (fun _ _ _ => eq_refl)) as E2.
  pose proof (wparts s AZ dxf dxb (fun i j k => dxf AY j * dxb AX i)%C (h AX) (e AY) Hf Hb (fun _ _ _ => eq_refl)) as E3.
  pose proof (wparts s AX dxf dxb (fun i j k => dxf AY j * dxb AZ k)%C (h AZ) (e AY) Hf Hb (fun _ _ _ => eq_refl)) as E4.
  pose proof (wparts s AX dxf dxb (fun i j k => dxf AZ k * dxb AY j)%C (h AY) (e AZ) Hf Hb (fun _ _ _ => eq_refl)) as E5.
  pose proof (wparts s AY dxf dxb (fun i j k => dxf AZ k * dxb AX i)%C (h AX) (e AZ) Hf Hb (fun _ _ _ => eq_refl)) as E6.
  cbn [coord] in *. unfold wvpair, wpair.
  rewrite (grid_sum_ext s (fun i j k => vol_e dxf dxb AX i j k * curl_fn (diff_fn s dxb true) h AX i j k * e AX i j k)%C
    (fun i j k => dxb AY j * (dxf AX i * dxb AZ k) * diff_fn s dxb true (h AZ) AY i j k * e AX i j k -
       dxb AZ k * (dxf AX i * dxb AY j) * diff_fn s dxb true (h AY) AZ i j k * e AX i j k)%C) by (intros; unfold vol_e, curl_fn; ring).
  rewrite (grid_sum_ext s (fun i j k => vol_e dxf dxb AY i j k * curl_fn (diff_fn s dxb true) h AY i j k * e AY i j k)%C
    (fun i j k => dxb AZ k * (dxf AY j * dxb AX i) * diff_fn s dxb true (h AX) AZ i j k * e AY i j k -
       dxb AX i * (dxf AY j * dxb AZ k) * diff_fn s dxb true (h AZ) AX i j k * e AY i j k)%C) by (intros; unfold vol_e, curl_fn; ring).
  rewrite (grid_sum_ext s (fun i j k => vol_e dxf dxb AZ i j k * curl_fn (diff_fn s dxb true) h AZ i j k * e AZ i j k)%C
    (fun i j k => dxb AX i * (dxf AZ k * dxb AY j) * diff_fn s dxb true (h AY) AX i j k * e AZ i j k -
       dxb AY j * (dxf AZ k * dxb AX i) * diff_fn s dxb true (h AX) AY i j k * e AZ i j k)%C) by (intros; unfold vol_e, curl_fn; ring).
  rewrite (grid_sum_ext s (fun i j k => vol_h dxf dxb AX i j k * h AX i j k * curl_fn (diff_fn s dxf false) e AX i j k)%C
    (fun i j k => dxf AY j * (dxf AZ k * dxb AX i) * h AX i j k * diff_fn s dxf false (e AZ) AY i j k -
       dxf AZ k * (dxf AY j * dxb AX i) * h AX i j k * diff_fn s dxf false (e AY) AZ i j k)%C) by (intros; unfold vol_h, curl_fn; ring).
  rewrite (grid_sum_ext s (fun i j k => vol_h dxf dxb AY i j k * h AY i j k * curl_fn (diff_fn s dxf false) e AY i j k)%C
    (fun i j k => dxf AZ k * (dxf AX i * dxb AY j) * h AY i j k * diff_fn s dxf false (e AX) AZ i j k -
       dxf AX i * (dxf AZ k * dxb AY j) * h AY i j k * diff_fn s dxf false (e AZ) AX i j k)%C) by (intros; unfold vol_h, curl_fn; ring).
  rewrite (grid_sum_ext s (fun i j k => vol_h dxf dxb AZ i j k * h AZ i j k * curl_fn (diff_fn s dxf false) e AZ i j k)%C
    (fun i j k => dxf AX i * (dxf AY j * dxb AZ k) * h AZ i j k * diff_fn s dxf false (e AY) AX i j k -
       dxf AY j * (dxf AX i * dxb AZ k) * h AZ i j k * diff_fn s dxf false (e AX) AY i j k)%C) by (intros; unfold vol_h, curl_fn; ring).
  rewrite !grid_sum_sub, E1, E2, E3, E4, E5, E6. ring.
Qed.
Lemma wvpair_sym : forall s w f g, wvpair s w f g = wvpair s w g f.
Proof.
  intros. unfold wvpair, wpair. f_equal; [f_equal |]; apply grid_sum_ext; intros; ring.
Qed.
Lemma wvpair_ext : forall s w f g f' g', (forall c i j k, in_grid s i j k -> f c i j k = f' c i j k) ->
  (forall c i j k, in_grid s i j k -> g c i j k = g' c i j k) -> wvpair s w f g = wvpair s w f' g'.
Proof.
  intros s w f g f' g' Hf Hg. unfold wvpair, wpair. f_equal; [f_equal |]; apply grid_sum_ext; intros; rewrite Hf, Hg by auto; reflexivity.
Qed.
Lemma wpair_ext : forall s w f g f' g', (forall i j k, in_grid s i j k -> f i j k = f' i j k) ->
  (forall i j k, in_grid s i j k -> g i j k = g' i j k) -> wpair s w f g = wpair s w f' g'.
Proof. intros s w f g f' g' Hf Hg. unfold wpair. apply grid_sum_ext; intros; rewrite Hf, Hg by auto; reflexivity. Qed.
Lemma wpair_sub : forall s w f g h, wpair s w (fun i j k => f i j k - g i j k)%C h = (wpair s w f h - wpair s w g h)%C.
Proof. intros. unfold wpair. rewrite <- grid_sum_sub. apply grid_sum_ext; intros; ring. Qed.
Lemma wvpair_sub : forall s w f g h, wvpair s w (fun c i j k => f c i j k - g c i j k)%C h = (wvpair s w f h - wvpair s w g h)%C.
Proof. intros. unfold wvpair. rewrite !(wpair_sub s (w _) (f _) (g _)). ring. Qed.
(** The 3-D operator is complex symmetric for the volume-weighted pairing. *)
Lemma op3_sym : forall d u v, nz_pixel (d_shape d) (d_dxf d) -> nz_pixel (d_shape d) (d_dxb d) ->
  wvpair (d_shape d) (vol_e (d_dxf d) (d_dxb d)) (op3 d u) v = wvpair (d_shape d) (vol_e (d_dxf d) (d_dxb d)) u (op3 d v).
Proof.
  intros d u v Hf Hb. unfold op3.
  rewrite (wvpair_sub _ _ (dcurl_h d (dcurl_e d u)) (fun c i j k => RtoC (d_k0 d * d_k0 d) * RtoC (d_eps d c i j k) * u c i j k)%C).
  rewrite (wvpair_sym _ _ u).
  rewrite (wvpair_sub _ _ (dcurl_h d (dcurl_e d v)) (fun c i j k => RtoC (d_k0 d * d_k0 d) * RtoC (d_eps d c i j k) * v c i j k)%C).
  unfold dcurl_h. rewrite !curl_transpose by auto. fold (dcurl_e d).
  rewrite (wvpair_sym _ _ (dcurl_e d u) (dcurl_e d v)). f_equal.
  unfold wvpair, wpair. f_equal; [f_equal |]; apply grid_sum_ext; intros; ring.
Qed.
Lemma wvpair_scal : forall s w c f g, wvpair s w (fun a i j k => c * f a i j k)%C g = (c * wvpair s w f g)%C.
Proof.
  intros. unfold wvpair, wpair.
  rewrite (grid_sum_ext s (fun i j k => w AX i j k * (c * f AX i j k) * g AX i j k)%C (fun i j k => c * (w AX i j k * f AX i j k * g AX i j k))%C) by (intros; ring).
  rewrite (grid_sum_ext s (fun i j k => w AY i j k * (c * f AY i j k) * g AY i j k)%C (fun i j k => c * (w AY i j k * f AY i j k * g AY i j k))%C) by (intros; ring).
  rewrite (grid_sum_ext s (fun i j k => w AZ i j k * (c * f AZ i j k) * g AZ i j k)%C (fun i j k => c * (w AZ i j k * f AZ i j k * g AZ i j k))%C) by (intros; ring).
  rewrite !grid_sum_scal. ring.
Qed.
Lemma exact3_op3 : forall d solver src, d_bloch d = (fun _ => C1) -> exact3 d solver src ->
  forall c i j k, in_grid (d_shape d) i j k -> op3 d (fst (solve3 d solver src)) c i j k = (RtoC (d_k0 d) * src c i j k)%C.
Proof.
  intros d solver src Hb Hs c i j k H. pose proof H as (Hi & Hj & Hk). rewrite <- mat3_op3 by auto.
  pose proof (Hs c _ (ridx_bound _ _ _ _ H)) as E. rewrite ravel_ridx in E by auto. rewrite <- E.
  unfold solve3. cbn [fst]. unfold bmatvec.
  f_equal; [f_equal |]; apply matvec_ext; intros q Hq; apply ravel_unravel; exact Hq.
Qed.
Lemma reciprocity3 : forall d solver j1 j2, d_bloch d = (fun _ => C1) -> d_k0 d <> 0 ->
  nz_pixel (d_shape d) (d_dxf d) -> nz_pixel (d_shape d) (d_dxb d) -> exact3 d solver j1 -> exact3 d solver j2 ->
  wvpair (d_shape d) (vol_e (d_dxf d) (d_dxb d)) (fst (solve3 d solver j1)) j2 =
  wvpair (d_shape d) (vol_e (d_dxf d) (d_dxb d)) (fst (solve3 d solver j2)) j1.
Proof.
  intros d solver j1 j2 Hb Hk Hf Hbb H1 H2.
  set (e1 := fst (solve3 d solver j1)). set (e2 := fst (solve3 d solver j2)).
  set (W := vol_e (d_dxf d) (d_dxb d)). set (s := d_shape d).
  assert (E : (RtoC (d_k0 d) * wvpair s W e1 j2)%C = (RtoC (d_k0 d) * wvpair s W e2 j1)%C).
  { rewrite (wvpair_sym s W e1 j2), (wvpair_sym s W e2 j1), <- !wvpair_scal.
    rewrite (wvpair_ext s W (fun a i j k => RtoC (d_k0 d) * j2 a i j k)%C e1 (op3 d e2) e1)
      by (intros; try (symmetry; apply exact3_op3); auto).
    rewrite (wvpair_ext s W (fun a i j k => RtoC (d_k0 d) * j1 a i j k)%C e2 (op3 d e1) e2)
      by (intros; try (symmetry; apply exact3_op3); auto).
    rewrite (wvpair_sym s W (op3 d e2) e1). symmetry. apply op3_sym; auto. }
  assert (Hn : RtoC (d_k0 d) <> C0) by (intros A; apply Hk; apply (f_equal re) in A; exact A).
  apply (f_equal (fun z => (Cinv (RtoC (d_k0 d)) * z)%C)) in E.
  replace (wvpair s W e1 j2) with (Cinv (RtoC (d_k0 d)) * (RtoC (d_k0 d) * wvpair s W e1 j2))%C by (field; auto).
  rewrite E. field; auto.
Qed.
