(** Proofs for C179 (2): the systems, mode by mode. *)
From Coq Require Import Reals Lra Lia List Arith ZArith Bool.
From Verif Require Import Cx Arr Model_coupling Model_yee Spec_yee Proof_yee Proof_yee2 Model_fdfd Spec_fdfd Spec_fdtd Spec_disp Proof_energy Proof_nbasis4 Proof_gauss Spec_absorb Proof_absorb5
  Model_fdfdc Spec_fdfdc Proof_fdfdc Proof_fdfdc2 Proof_fdfdc3 Proof_disp2 Proof_reson Spec_reson.
Local Open Scope R_scope.

Lemma inner_swap : forall s f g, inner s g f = Cconj (inner s f g).
Proof. intros. unfold inner. rewrite grid_sum_conj. apply grid_sum_ext. intros. rewrite Cconj_mul, Cconj_conj. ring. Qed.
Lemma inner_scal_r : forall s c f g, inner s f (fun i j k => c * g i j k)%C = (Cconj c * inner s f g)%C.
Proof. intros. rewrite inner_swap, inner_scal_l, Cconj_mul, <- inner_swap. reflexivity. Qed.
Definition dot (u v : axis -> C) : C := (u AX * v AX + u AY * v AY + u AZ * v AZ)%C.
Definition norm2 (u : axis -> C) : R := sum3 (fun c => Cn2 (u c)).
Lemma lagrange : forall p e, (forall a, p a = mkC (re (p a)) (im (p a))) -> Cn2 (dot (fun a => - Cconj (p a))%C e) <= norm2 p * norm2 e.
Proof.
  intros p e _. unfold norm2, sum3, dot.
  set (f a b := (p a * e b - p b * e a)%C).
  assert (E : Cn2 (p AX) * Cn2 (e AX) + Cn2 (p AX) * Cn2 (e AY) = Cn2 (p AX) * (Cn2 (e AX) + Cn2 (e AY))) by ring. clear E.
  assert (I : (Cn2 (p AX) + Cn2 (p AY) + Cn2 (p AZ)) * (Cn2 (e AX) + Cn2 (e AY) + Cn2 (e AZ)) =
    Cn2 (- Cconj (p AX) * e AX + - Cconj (p AY) * e AY + - Cconj (p AZ) * e AZ)%C + Cn2 (f AX AY) + Cn2 (f AX AZ) + Cn2 (f AY AZ)).
  { unfold f, Cn2. destruct (p AX) as [xr0 xi0]; destruct (p AY) as [xr1 xi1]; destruct (p AZ) as [xr2 xi2]; destruct (e AX) as [xr3 xi3]; destruct (e AY) as [xr4 xi4]; destruct (e AZ) as [xr5 xi5]. cbn [re im Cadd Cmul Csub Copp Cconj]. ring. }
  rewrite I. pose proof (Cn2_nonneg (f AX AY)). pose proof (Cn2_nonneg (f AX AZ)). pose proof (Cn2_nonneg (f AY AZ)). lra.
Qed.
Lemma mode_bound : forall (p e s : axis -> C) (kap : C) k g, let q := fun a => (- Cconj (p a))%C in
  (forall c, (p c * dot q e + RtoC (norm2 p) * e c = kap * e c + RtoC k * s c)%C) ->
  g <= Cn2 (RtoC (norm2 p) - kap)%C -> g <= Cn2 kap -> g * norm2 e <= k * k * norm2 s.
Proof.
  intros p e s kap k g q H G1 G2. set (m := norm2 p) in *. set (D := dot q e) in *.
  assert (K : k * k * norm2 s = Cn2 (RtoC m - kap)%C * norm2 e + (m - 2 * (m - re kap)) * Cn2 D).
  { transitivity (sum3 (fun c => Cn2 ((RtoC m - kap) * e c + p c * D)%C)).
    - unfold norm2, sum3. rewrite !Rmult_plus_distr_l, <- !Cn2_RtoC, <- !Cn2_mul.
      assert (Q : forall c, (RtoC k * s c)%C = ((RtoC m - kap) * e c + p c * D)%C).
      { intro c. specialize (H c). assert (T : (RtoC k * s c)%C = (p c * D + RtoC m * e c - kap * e c)%C) by (rewrite H; ring). rewrite T. ring. }
      rewrite !Q. reflexivity.
    - assert (Z : Cn2 ((RtoC m - kap) * e AX + p AX * D)%C + Cn2 ((RtoC m - kap) * e AY + p AY * D)%C + Cn2 ((RtoC m - kap) * e AZ + p AZ * D)%C =
        Cn2 (RtoC m - kap)%C * norm2 e + norm2 p * Cn2 D - 2 * re ((RtoC m - kap) * Cconj D * dot q e)%C).
      { unfold q, dot, norm2, sum3, Cn2. destruct (p AX) as [xr0 xi0]; destruct (p AY) as [xr1 xi1]; destruct (p AZ) as [xr2 xi2]; destruct (e AX) as [xr3 xi3]; destruct (e AY) as [xr4 xi4]; destruct (e AZ) as [xr5 xi5]; destruct D as [xr6 xi6]; destruct kap as [xr7 xi7]. cbn [re im Cadd Cmul Csub Copp Cconj RtoC]. ring. }
      unfold sum3 at 1. rewrite Z. fold m D. unfold Cn2. destruct D as [xr0 xi0]; destruct kap as [xr1 xi1]. cbn [re im Cadd Cmul Csub Copp Cconj RtoC]. ring. }
  rewrite K. pose proof (lagrange p e ltac:(intro a; destruct (p a); reflexivity)) as L. change (fun a => (- Cconj (p a))%C) with q in L. fold D m in L.
  assert (M : 0 <= m) by (unfold m, norm2, sum3; pose proof (Cn2_nonneg (p AX)); pose proof (Cn2_nonneg (p AY)); pose proof (Cn2_nonneg (p AZ)); lra).
  assert (N : 0 <= norm2 e) by (unfold norm2, sum3; pose proof (Cn2_nonneg (e AX)); pose proof (Cn2_nonneg (e AY)); pose proof (Cn2_nonneg (e AZ)); lra).
  pose proof (Cn2_nonneg D) as PD. destruct (Req_dec m 0) as [Z | Z].
  - rewrite Z in *. assert (D0 : Cn2 D = 0) by lra. rewrite D0. rewrite Rmult_0_r, Rplus_0_r. apply Rmult_le_compat_r; auto.
  - apply Rmult_le_reg_l with m; [lra |].
    replace (m * (Cn2 (RtoC m - kap)%C * norm2 e + (m - 2 * (m - re kap)) * Cn2 D)) with (Cn2 (RtoC m - kap)%C * (m * norm2 e - Cn2 D) + Cn2 kap * Cn2 D)
      by (unfold Cn2; cbn [re im RtoC Csub]; ring).
    replace (m * (g * norm2 e)) with (g * (m * norm2 e - Cn2 D) + g * Cn2 D) by ring.
    apply Rplus_le_compat; apply Rmult_le_compat_r; lra.
Qed.

Section Box.
Variables (d : cfdfd) (w : axis -> R) (eps : C).
Hypothesis HB : filled_box d w eps.
Let s := cf_shape d.
Let k0 := cf_k0 d.
Let kap := (RtoC (k0 * k0) * eps)%C.
Lemma b_s : positive_shape s. Proof. apply HB. Qed.
Lemma b_w : forall a, 0 < w a. Proof. apply HB. Qed.
Lemma b_wn : forall a, w a <> 0. Proof. intro a. pose proof (b_w a). lra. Qed.
Lemma b_f : cf_dxf d = uniform_dx w. Proof. apply HB. Qed.
Lemma b_b : cf_dxb d = uniform_dx w. Proof. apply HB. Qed.
Lemma b_k : 0 < k0. Proof. apply HB. Qed.
Lemma b_unit : forall a, cf_bloch d a = cis (Carg (cf_bloch d a)). Proof. intro a. symmetry. apply cis_Carg_unit. apply HB. Qed.
Lemma b_one : forall a, s a = 1%nat -> cf_bloch d a = C1. Proof. apply HB. Qed.
Lemma b_e : forall c i j k, in_grid s i j k -> eps_at s (cf_eps d) c i j k = eps.
Proof.
  intros c i j k (Hi & Hj & Hk). pose proof HB as (_ & _ & _ & _ & _ & _ & _ & E). fold s in E.
  pose proof (pred_bound (s AX) i Hi) as Pi. pose proof (pred_bound (s AY) j Hj) as Pj.
  assert (G : forall i j, (i < s AX)%nat -> (j < s AY)%nat -> cf_eps d i j k = eps) by (intros; apply E; repeat split; auto).
  unfold eps_at. destruct c; rewrite ?(G i j), ?(G i (pred_p (s AY) j)), ?(G (pred_p (s AX) i) j), ?(G (pred_p (s AX) i) (pred_p (s AY) j)) by auto;
    apply C_eq; unfold Cdiv, Cinv, Cn2; cbn [re im RtoC Csub Cmul Cadd Copp]; field.
Qed.
Section Wave.
Variable th : axis -> R.
Hypothesis Hfit : fits s (cf_bloch d) th.
Let W := bloch_wave th.
Let p := pp w th.
Let q := qq w th.
Definition hw (f : fld) : C := inner s f (bloch_wave th).
Lemma qp : forall a, q a = (- Cconj (p a))%C.
Proof.
  intro a. unfold q, p, qq, pp. rewrite cis_opp. pose proof (b_wn a). unfold Cdiv. rewrite <- RtoC_inv by auto.
  apply C_eq; cbn [re im Cconj Cmul Csub Copp RtoC C1 cis]; ring.
Qed.
Lemma p_norm : norm2 p = wave_k2 w th.
Proof.
  assert (E : forall a, Cn2 (p a) = (2 * sin (th a / 2) / w a) ^ 2).
  { intro a. pose proof (pq w th b_wn a) as P. fold (p a) (q a) in P. rewrite qp in P. apply (f_equal re) in P. cbn [re RtoC] in P.
    rewrite <- (Ropp_involutive (Cn2 (p a))). rewrite <- (Ropp_involutive (_ ^ 2)). f_equal. rewrite <- P. unfold Cn2. cbn [re im Cmul Copp Cconj]. ring. }
  unfold norm2, wave_k2, sum3. rewrite !E. reflexivity.
Qed.
Lemma dp_wave : forall a, same_on s (dplus d W a) (fun i j k => p a * W i j k)%C.
Proof.
  intros a i j k H. unfold dplus. rewrite b_f. fold s. pose proof (quot_f s w th (cf_bloch d) Hfit b_one C1 a i j k H) as Q. fold p W in Q.
  unfold quot in Q. replace (p a * C1 * W i j k)%C with (p a * W i j k)%C in Q by ring. rewrite <- Q. unfold W. apply (quot_ext s _ _ false); auto. intros; ring.
Qed.
Lemma dm_wave : forall a, same_on s (dminus d W a) (fun i j k => q a * W i j k)%C.
Proof.
  intros a i j k H. unfold dminus. rewrite b_b. fold s. pose proof (quot_b s w th (cf_bloch d) Hfit b_one C1 a i j k H) as Q. fold q W in Q.
  unfold quot in Q. replace (q a * C1 * W i j k)%C with (q a * W i j k)%C in Q by ring. rewrite <- Q. unfold W. apply (quot_ext s _ _ true); auto. intros; ring.
Qed.
Lemma hw_dm : forall f a, hw (dminus d f a) = (q a * hw f)%C.
Proof.
  intros f a. unfold hw. fold W. unfold s. rewrite (dm_adj d w b_f b_b). fold s. rewrite (inner_ext' s f _ f _ (fun _ _ _ _ => eq_refl) (dp_wave a)).
  rewrite inner_scal_r, qp. ring.
Qed.
Lemma hw_dp : forall f a, hw (dplus d f a) = (p a * hw f)%C.
Proof.
  intros f a. unfold hw. fold W. rewrite inner_swap. pose proof (dm_adj d w b_f b_b W a f) as A. fold s in A.
  assert (B : inner s W (dplus d f a) = (- inner s (dminus d W a) f)%C) by (rewrite A; ring). rewrite B.
  rewrite (inner_ext' s _ f _ f (dm_wave a) (fun _ _ _ _ => eq_refl)), inner_scal_l, qp. rewrite (inner_swap s f W).
  generalize (inner s f W). intro z. destruct z as [xr0 xi0]; destruct (p a) as [xr1 xi1]. apply C_eq; cbn [re im Cconj Cmul Copp]; ring.
Qed.
Lemma hw_ext : forall f g, same_on s f g -> hw f = hw g.
Proof. intros. unfold hw. apply inner_ext'; auto. intros i j k _. reflexivity. Qed.
Lemma hw_sub : forall f g, hw (fun i j k => f i j k - g i j k)%C = (hw f - hw g)%C. Proof. intros. apply inner_sub_l. Qed.
Lemma hw_add : forall f g, hw (fun i j k => f i j k + g i j k)%C = (hw f + hw g)%C. Proof. intros. apply inner_add_l. Qed.
Lemma hw_scal : forall c f, hw (fun i j k => c * f i j k)%C = (c * hw f)%C. Proof. intros. apply inner_scal_l. Qed.
Lemma hw_self : hw W = RtoC (power2 s W). Proof. apply inner_self. Qed.
Lemma W_pos : 0 < power2 s W.
Proof.
  assert (E : Cn2 (W 0%nat 0%nat 0%nat) = 1) by apply Cn2_cis. pose proof (power2_term s W 0%nat 0%nat 0%nat) as T. rewrite E in T.
  assert (1 <= power2 s W); [apply T | lra]. repeat split; apply b_s.
Qed.
Lemma te_k2 : s AZ = 1%nat -> (- (q AX * p AX) - q AY * p AY)%C = RtoC (wave_k2 w th).
Proof.
  intro E. pose proof (pq_sum w th b_wn) as P. fold p q in P. assert (Z : (q AZ * p AZ)%C = C0).
  { assert (F : cis (th AZ) = C1) by (apply (one_cell s th (cf_bloch d) Hfit b_one); auto). unfold p, pp. rewrite F. unfold Cdiv. ring. }
  rewrite Z in P. rewrite RtoC_opp in P. replace (RtoC (wave_k2 w th)) with (- - RtoC (wave_k2 w th))%C by ring. rewrite <- P. ring.
Qed.
Lemma te_mode : forall src e, s AZ = 1%nat -> wave_te d src e -> (detuning d w eps th * hw e = RtoC k0 * hw src)%C.
Proof.
  intros src e E H. unfold wave_te in H. fold s k0 in H.
  assert (A : hw (fun i j k => - C1 * dminus d (dplus d e AX) AX i j k - dminus d (dplus d e AY) AY i j k)%C = hw (fun i j k => kap * e i j k + RtoC k0 * src i j k)%C).
  { apply hw_ext. intros i j k G. specialize (H i j k G). rewrite b_e in H by auto. unfold kap. rewrite <- H. ring. }
  rewrite hw_sub, hw_add, !hw_scal, !hw_dm, !hw_dp in A. unfold detuning. fold k0 kap. rewrite <- (te_k2 E).
  transitivity (- C1 * (q AX * (p AX * hw e)) - q AY * (p AY * hw e) - kap * hw e)%C; [ring | rewrite A; ring].
Qed.
Lemma tm_mode : forall src h, s AZ = 1%nat -> eps <> C0 -> wave_tm d src h -> (detuning d w eps th * hw h = eps * (RtoC k0 * hw src))%C.
Proof.
  intros src h E Ne H. unfold wave_tm in H. fold s k0 in H.
  assert (X : forall a b, same_on s (dminus d (fun i j k => dplus d h a i j k / eps_at s (cf_eps d) b i j k)%C a) (fun i j k => dminus d (fun i j k => Cinv eps * dplus d h a i j k) a i j k)%C).
  { intros a b i j k G. unfold dminus. fold s. apply (quot_ext s _ _ true); auto. intros i' j' k' G'. rewrite b_e by auto. unfold Cdiv. ring. }
  assert (A : hw (fun i j k => - C1 * dminus d (fun i j k => Cinv eps * dplus d h AX i j k) AX i j k - dminus d (fun i j k => Cinv eps * dplus d h AY i j k) AY i j k)%C
     = hw (fun i j k => RtoC (k0 * k0) * h i j k + RtoC k0 * src i j k)%C).
  { apply hw_ext. intros i j k G. specialize (H i j k G). rewrite (X AX AY i j k G), (X AY AX i j k G) in H. rewrite <- H. ring. }
  rewrite hw_sub, hw_add, !hw_scal, !hw_dm, !hw_scal, !hw_dp in A. unfold detuning. fold k0. rewrite <- (te_k2 E).
  assert (U : (eps * Cinv eps)%C = C1) by (field; auto).
  transitivity (eps * (- C1 * (q AX * (Cinv eps * (p AX * hw h))) - q AY * (Cinv eps * (p AY * hw h))) - RtoC (k0 * k0) * eps * hw h)%C; [| rewrite A; ring].
  transitivity ((eps * Cinv eps) * ((- (q AX * p AX) - q AY * p AY) * hw h) - RtoC (k0 * k0) * eps * hw h)%C; [rewrite U; ring | ring].
Qed.
Lemma mode3 : forall src e, wave3 d src e -> forall c, (p c * dot q (fun a => hw (e a)) + RtoC (norm2 p) * hw (e c) = kap * hw (e c) + RtoC k0 * hw (src c))%C.
Proof.
  intros src e H c. unfold wave3 in H. fold s k0 in H.
  assert (A : hw (curl_of (dminus d) (curl_of (dplus d) e) c) = (kap * hw (e c) + RtoC k0 * hw (src c))%C).
  { rewrite <- !hw_scal, <- hw_add. apply hw_ext. intros i j k G. rewrite (H c i j k G), b_e by auto. reflexivity. }
  rewrite <- A. assert (P : RtoC (norm2 p) = (- dot q p)%C).
  { rewrite p_norm. pose proof (pq_sum w th b_wn) as P. fold p q in P. unfold dot. rewrite P, RtoC_opp. ring. }
  rewrite P. unfold dot. destruct c; unfold curl_of; rewrite hw_sub, !hw_dm, !hw_sub, !hw_dp; ring.
Qed.
End Wave.
End Box.
