(** Proofs for C165: stability of frequency-domain solutions. *)
From Coq Require Import Reals List Arith ZArith Lra Lia Bool.
From Verif Require Import Cx Arr Model_coupling Model_yee Spec_yee Proof_yee Proof_yee2 Proof_yee3 Model_fdfd Spec_fdfd Spec_fdtd Proof_energy Proof_fdfd
  Model_fdfdc Spec_fdfdc Proof_fdfdc Proof_fdfdc2 Proof_fdfdc3 Proof_adj Spec_fdfdst.
Local Open Scope R_scope.

Lemma dplus_sub : forall d f g a i j k, dplus d (fsub f g) a i j k = (dplus d f a i j k - dplus d g a i j k)%C.
Proof. intros. unfold dplus, fsub. exact (quot_sub (cf_shape d) (cf_dxf d) (cf_bloch d) false f g a i j k). Qed.
Lemma dminus_sub : forall d f g a i j k, dminus d (fsub f g) a i j k = (dminus d f a i j k - dminus d g a i j k)%C.
Proof. intros. unfold dminus, fsub. exact (quot_sub (cf_shape d) (cf_dxb d) (cf_bloch d) true f g a i j k). Qed.
Lemma dminus_ext : forall d f g a i j k, same_on (cf_shape d) f g -> in_grid (cf_shape d) i j k -> dminus d f a i j k = dminus d g a i j k.
Proof. intros. unfold dminus. exact (quot_ext (cf_shape d) (cf_dxb d) (cf_bloch d) true f g a i j k H H0). Qed.
Lemma dplus_ext : forall d f g a i j k, same_on (cf_shape d) f g -> in_grid (cf_shape d) i j k -> dplus d f a i j k = dplus d g a i j k.
Proof. intros. unfold dplus. exact (quot_ext (cf_shape d) (cf_dxf d) (cf_bloch d) false f g a i j k H H0). Qed.
Lemma curl_plus_sub : forall d u v c i j k, curl_of (dplus d) (vsub u v) c i j k = (curl_of (dplus d) u c i j k - curl_of (dplus d) v c i j k)%C.
Proof. intros. unfold curl_of, vsub. destruct c; rewrite !dplus_sub; ring. Qed.
Lemma curl_minus_sub : forall d u v c i j k, curl_of (dminus d) (vsub u v) c i j k = (curl_of (dminus d) u c i j k - curl_of (dminus d) v c i j k)%C.
Proof. intros. unfold curl_of, vsub. destruct c; rewrite !dminus_sub; ring. Qed.
Lemma curl_minus_ext : forall d u v c i j k, (forall c, same_on (cf_shape d) (u c) (v c)) -> in_grid (cf_shape d) i j k -> curl_of (dminus d) u c i j k = curl_of (dminus d) v c i j k.
Proof. intros d u v c i j k H Hg. unfold curl_of. destruct c; rewrite !(dminus_ext d (u _) (v _)) by auto; reflexivity. Qed.
Lemma wave3_sub : forall d src src' e e', wave3 d src e -> wave3 d src' e' -> wave3 d (vsub src src') (vsub e e').
Proof.
  intros d src src' e e' W W' c i j k Hg.
  rewrite (curl_minus_ext d _ (vsub (curl_of (dplus d) e) (curl_of (dplus d) e'))); [| intros c' x y z _; apply curl_plus_sub | exact Hg].
  rewrite curl_minus_sub, (W c i j k Hg), (W' c i j k Hg). unfold vsub, fsub. ring.
Qed.
Lemma wave_te_sub : forall d src src' e e', wave_te d src e -> wave_te d src' e' -> wave_te d (fsub src src') (fsub e e').
Proof.
  intros d src src' e e' W W' i j k Hg. specialize (W i j k Hg). specialize (W' i j k Hg).
  assert (Q : forall a, dminus d (dplus d (fsub e e') a) a i j k = (dminus d (dplus d e a) a i j k - dminus d (dplus d e' a) a i j k)%C).
  { intros a. rewrite <- dminus_sub. apply dminus_ext; auto. intros x y z _. apply dplus_sub. }
  rewrite !Q. unfold fsub.
  match type of W with ?a = ?b => match type of W' with ?a' = ?b' => transitivity (a - a')%C; [ring | rewrite W, W'; ring] end end.
Qed.
Lemma wave_tm_sub : forall d src src' e e', wave_tm d src e -> wave_tm d src' e' -> wave_tm d (fsub src src') (fsub e e').
Proof.
  intros d src src' e e' W W' i j k Hg. specialize (W i j k Hg). specialize (W' i j k Hg).
  assert (Q : forall a (t : fld), dminus d (fun i j k => dplus d (fsub e e') a i j k / t i j k)%C a i j k =
     (dminus d (fun i j k => dplus d e a i j k / t i j k)%C a i j k - dminus d (fun i j k => dplus d e' a i j k / t i j k)%C a i j k)%C).
  { intros a t. rewrite <- dminus_sub. apply dminus_ext; auto. intros x y z _. unfold fsub. fold (fsub e e'). rewrite dplus_sub. unfold Cdiv. ring. }
  rewrite (Q AX (eps_at (cf_shape d) (cf_eps d) AY)), (Q AY (eps_at (cf_shape d) (cf_eps d) AX)). unfold fsub.
  match type of W with ?a = ?b => match type of W' with ?a' = ?b' => transitivity (a - a')%C; [ring | rewrite W, W'; ring] end end.
Qed.
(** ** A residual is a source. *)
Definition plus_res (k0 : R) (src res : fld) : fld := fun i j k => (src i j k + RtoC (/ k0) * res i j k)%C.
Lemma kinv : forall k, k <> 0 -> (RtoC k * RtoC (/ k))%C = C1.
Proof. intros k H. apply C_eq; cbn [re im RtoC Cmul C1]; field; auto. Qed.
Lemma near3_wave : forall d solver src res, cf_k0 d <> 0 -> near3c d solver src res -> wave3 d (fun c => plus_res (cf_k0 d) (src c) (res c)) (fst (solve3c d solver src)).
Proof.
  intros d solver src res Hk H. apply (sys3 d (solver (mat3c d) (rhs3c d src))). intros c r Hr. etransitivity; [exact (H c r Hr) |].
  unfold plus_res, ravel. apply C_eq; cbn [re im RtoC Cadd Cmul]; field; auto.
Qed.
Lemma near_te_wave : forall d solver src res, cf_k0 d <> 0 -> near2c d (mat_ez_c d) solver src res -> wave_te d (plus_res (cf_k0 d) src res) (fst (solve2_te_c d solver src) AZ).
Proof.
  intros d solver src res Hk H. apply (sys_te d (solver (mat_ez_c d) (rhs2c d src))). intros r Hr. etransitivity; [exact (H r Hr) |].
  unfold plus_res, ravel. apply C_eq; cbn [re im RtoC Cadd Cmul]; field; auto.
Qed.
Lemma near_tm_wave : forall d solver src res, cf_k0 d <> 0 -> near2c d (mat_hz_c d) solver src res -> wave_tm d (plus_res (cf_k0 d) src res) (snd (solve2_tm_c d solver src) AZ).
Proof.
  intros d solver src res Hk H. apply (sys_tm d (solver (mat_hz_c d) (rhs2c d src))). intros r Hr. etransitivity; [exact (H r Hr) |].
  unfold plus_res, ravel. apply C_eq; cbn [re im RtoC Cadd Cmul]; field; auto.
Qed.
(** ** A change of permittivity is a source. *)
Definition plus_eps (s : shape3) (k0 : R) (eps eps' : fld) (c : axis) (src e : fld) : fld := fun i j k =>
  (src i j k + RtoC k0 * ((eps_at s eps' c i j k - eps_at s eps c i j k) * e i j k))%C.
Lemma eps3_wave : forall d eps' src e, wave3 (with_eps d eps') src e -> wave3 d (fun c => plus_eps (cf_shape d) (cf_k0 d) (cf_eps d) eps' c (src c) (e c)) e.
Proof.
  intros d eps' src e W c i j k Hg. etransitivity; [exact (W c i j k Hg) |]. unfold plus_eps, with_eps. cbn [cf_shape cf_k0 cf_eps].
  apply C_eq; cbn [re im RtoC Cadd Csub Cmul]; ring.
Qed.
Lemma eps_te_wave : forall d eps' src e, wave_te (with_eps d eps') src e -> wave_te d (plus_eps (cf_shape d) (cf_k0 d) (cf_eps d) eps' AZ src e) e.
Proof.
  intros d eps' src e W i j k Hg. etransitivity; [exact (W i j k Hg) |]. unfold plus_eps, with_eps. cbn [cf_shape cf_k0 cf_eps].
  apply C_eq; cbn [re im RtoC Cadd Csub Cmul]; ring.
Qed.
(** ** Norms. *)
Lemma vpower2_rin : forall s f, vpower2 s f = rin s f f.
Proof. intros. unfold vpower2, sum3, power2. rewrite rin_split, !sin_self. reflexivity. Qed.
Lemma vnorm2_nrm : forall s f, vnorm2 s f = nrm s f.
Proof. intros. unfold vnorm2, nrm. rewrite vpower2_rin. reflexivity. Qed.
Lemma vnorm2_tri : forall s f g h, (forall c i j k, in_grid s i j k -> f c i j k = (g c i j k + h c i j k)%C) -> vnorm2 s f <= vnorm2 s g + vnorm2 s h.
Proof.
  intros s f g h H. rewrite !vnorm2_nrm. eapply Rle_trans; [| apply nrm_triangle]. right. unfold nrm. f_equal. apply rin_ext; auto.
Qed.
Lemma vnorm2_scal : forall s f g x, (forall c i j k, in_grid s i j k -> f c i j k = (RtoC x * g c i j k)%C) -> vnorm2 s f = Rabs x * vnorm2 s g.
Proof.
  intros s f g x H. rewrite !vnorm2_nrm, <- nrm_scal. unfold nrm. f_equal. apply rin_ext; auto.
Qed.
Lemma vnorm2_mul : forall s f g x, 0 <= x -> (forall c i j k, in_grid s i j k -> Cn2 (f c i j k) <= x * x * Cn2 (g c i j k)) -> vnorm2 s f <= x * vnorm2 s g.
Proof.
  intros s f g x Hx H. unfold vnorm2. rewrite <- (sqrt_square x Hx) at 1. rewrite <- sqrt_mult_alt by nra. apply sqrt_le_1_alt.
  unfold vpower2, sum3, power2. rewrite !Rmult_plus_distr_l, <- !rgrid_sum_scal.
  apply Rplus_le_compat; [apply Rplus_le_compat |]; apply rgrid_sum_le; auto.
Qed.
Lemma norm2_z : forall s f, norm2 s f = vnorm2 s (only_z f).
Proof.
  intros s f. unfold norm2, vnorm2. f_equal. unfold vpower2, sum3. cbn [only_z]. change (only_z f AX) with (fun _ _ _ : nat => C0). change (only_z f AY) with (fun _ _ _ : nat => C0).
  assert (E : power2 s (fun _ _ _ => C0) = 0). { unfold power2. transitivity (rgrid_sum s (fun i j k => 0 * 0)); [apply rgrid_sum_ext; intros; unfold Cn2; cbn [re im C0]; ring | rewrite rgrid_sum_scal; ring]. }
  rewrite E. change (only_z f AZ) with f. ring.
Qed.
Lemma norm2_tri : forall s f g h, (forall i j k, in_grid s i j k -> f i j k = (g i j k + h i j k)%C) -> norm2 s f <= norm2 s g + norm2 s h.
Proof. intros s f g h H. rewrite !norm2_z. apply vnorm2_tri. intros c i j k Hg. destruct c; cbn [only_z]; [ring | ring | auto]. Qed.
Lemma norm2_scal : forall s f g x, (forall i j k, in_grid s i j k -> f i j k = (RtoC x * g i j k)%C) -> norm2 s f = Rabs x * norm2 s g.
Proof. intros s f g x H. rewrite !norm2_z. apply vnorm2_scal. intros c i j k Hg. destruct c; cbn [only_z]; [ring | ring | auto]. Qed.
Lemma norm2_mul : forall s f g x, 0 <= x -> (forall i j k, in_grid s i j k -> Cn2 (f i j k) <= x * x * Cn2 (g i j k)) -> norm2 s f <= x * norm2 s g.
Proof.
  intros s f g x Hx H. rewrite !norm2_z. apply vnorm2_mul; auto. intros c i j k Hg. destruct c; cbn [only_z]; auto; unfold Cn2; cbn [re im C0]; lra.
Qed.
Lemma sqrt_bound : forall a p q, 0 <= a -> 0 <= p -> a * a * p <= q -> a * sqrt p <= sqrt q.
Proof. intros a p q Ha Hp H. rewrite <- (sqrt_square a Ha) at 1. rewrite <- sqrt_mult_alt by nra. apply sqrt_le_1_alt. exact H. Qed.
Lemma vpower2_nonneg : forall s f, 0 <= vpower2 s f.
Proof. intros. unfold vpower2, sum3. pose proof (power2_nonneg s (f AX)). pose proof (power2_nonneg s (f AY)). pose proof (power2_nonneg s (f AZ)). lra. Qed.
(** ** The averaged permittivities are as close as the permittivities. *)
Lemma avg2_close : forall a b x y dl, Cabs (a - x)%C <= dl -> Cabs (b - y)%C <= dl -> Cabs ((a + b) / RtoC 2 - (x + y) / RtoC 2)%C <= dl.
Proof.
  intros a b x y dl H1 H2. replace ((a + b) / RtoC 2 - (x + y) / RtoC 2)%C with (RtoC (1/2) * (a - x) + RtoC (1/2) * (b - y))%C.
  2:{ apply C_eq; unfold Cdiv, Cinv, Cn2; cbn [re im RtoC Cmul Cadd Csub]; field. }
  eapply Rle_trans; [apply Cabs_add |]. rewrite !Cabs_mul. assert (E : Cabs (RtoC (1/2)) = 1/2) by (apply Cabs_RtoC; lra). rewrite E. lra.
Qed.
Lemma eps_at_close : forall s eps eps' dl, (forall i j k, in_grid s i j k -> Cabs (eps i j k - eps' i j k)%C <= dl) ->
  forall c i j k, in_grid s i j k -> Cabs (eps_at s eps c i j k - eps_at s eps' c i j k)%C <= dl.
Proof.
  intros s eps eps' dl H c i j k (Hi & Hj & Hk). pose proof (pred_bound _ _ Hi) as Hi'. pose proof (pred_bound _ _ Hj) as Hj'.
  pose proof (H i j k (conj Hi (conj Hj Hk))) as H0. pose proof (H i (pred_p (s AY) j) k (conj Hi (conj Hj' Hk))) as H1.
  pose proof (H (pred_p (s AX) i) j k (conj Hi' (conj Hj Hk))) as H2. pose proof (H (pred_p (s AX) i) (pred_p (s AY) j) k (conj Hi' (conj Hj' Hk))) as H3.
  unfold eps_at. destruct c; [apply avg2_close; auto | apply avg2_close; auto |].
  pose proof (avg2_close _ _ _ _ _ (avg2_close _ _ _ _ _ H0 H2) (avg2_close _ _ _ _ _ H1 H3)) as A.
  eapply Rle_trans; [| exact A]. right. f_equal. apply C_eq; unfold Cdiv, Cinv, Cn2; cbn [re im RtoC Cmul Cadd Csub]; field.
Qed.
