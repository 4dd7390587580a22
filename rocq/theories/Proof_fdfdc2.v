(** Proofs for C164 (2): power balance, bounds. *)
From Coq Require Import Reals List Arith ZArith Lra Lia Bool.
From Verif Require Import Cx Arr Model_coupling Model_yee Spec_yee Proof_yee Proof_yee2 Proof_yee3 Model_fdfd Spec_fdfd Spec_fdtd Proof_energy Proof_fdfd Proof_fdfd6 Model_fdfdc Spec_fdfdc Proof_fdfdc.
Local Open Scope R_scope.

Lemma im_Csum' : forall n f, im (Csum n f) = Rsum n (fun i => im (f i)).
Proof. induction n; intros f; cbn [Csum Rsum]; [reflexivity |]. cbn [im Cadd]. rewrite IHn. reflexivity. Qed.
Lemma im_grid_sum : forall s F, im (grid_sum s F) = rgrid_sum s (fun i j k => im (F i j k)).
Proof.
  intros. unfold grid_sum, rgrid_sum. rewrite im_Csum'. apply Rsum_ext; intros i _. rewrite im_Csum'. apply Rsum_ext; intros j _.
  apply im_Csum'.
Qed.
Lemma power2_nonneg : forall s f, 0 <= power2 s f.
Proof. intros. apply rgrid_sum_nonneg. intros. unfold Cn2. nra. Qed.
Lemma power2_term : forall s f i j k, in_grid s i j k -> Cn2 (f i j k) <= power2 s f.
Proof.
  intros s f i j k (Hi & Hj & Hk). unfold power2, rgrid_sum.
  assert (P : forall x y z, 0 <= Cn2 (f x y z)) by (intros; unfold Cn2; nra).
  eapply Rle_trans; [| apply (Rsum_term_le (s AX) (fun i => Rsum (s AY) (fun j => Rsum (s AZ) (fun k => Cn2 (f i j k)))) i); auto; intros; repeat (apply Rsum_nonneg; intros); auto].
  eapply Rle_trans; [| apply (Rsum_term_le (s AY) (fun j => Rsum (s AZ) (fun k => Cn2 (f i j k))) j); auto; intros; apply Rsum_nonneg; intros; auto].
  apply (Rsum_term_le (s AZ) (fun k => Cn2 (f i j k)) k); auto.
Qed.
Lemma Cn2_zero : forall z, Cn2 z <= 0 -> z = C0.
Proof. intros z H. unfold Cn2 in H. apply C_eq; cbn [re im C0]; nra. Qed.
Lemma power2_zero : forall s f, power2 s f <= 0 -> same_on s f (fun _ _ _ => C0).
Proof. intros s f H i j k Hg. apply Cn2_zero. eapply Rle_trans; [apply power2_term; exact Hg | exact H]. Qed.
(** 2 t Re (c <u, e>) <= |c|^2 |u|^2 + t^2 |e|^2. *)
Lemma young : forall s u e (c : C) t, 2 * t * re (c * inner s u e)%C <= Cn2 c * power2 s u + t * t * power2 s e.
Proof.
  intros s u e c t. unfold inner. rewrite <- grid_sum_scal, re_grid_sum. unfold power2.
  rewrite <- !rgrid_sum_scal, <- rgrid_sum_add. apply rgrid_sum_le. intros i j k _. set (x := u i j k). set (y := e i j k).
  assert (Q : 0 <= Cn2 (c * x - RtoC t * y)%C) by (unfold Cn2; nra).
  unfold Cn2 in *. cbn [re im Cmul Csub RtoC Cconj] in *. lra.
Qed.
Lemma rgrid_sum_opp : forall s F, - rgrid_sum s F = rgrid_sum s (fun i j k => - F i j k).
Proof. intros s F. transitivity (-1 * rgrid_sum s F); [ring |]. rewrite <- rgrid_sum_scal. apply rgrid_sum_ext. intros. ring. Qed.
Lemma inner_ext' : forall s f g f' g', same_on s f f' -> same_on s g g' -> inner s f g = inner s f' g'.
Proof. intros s f g f' g' Hf Hg. unfold inner. apply grid_sum_ext. intros i j k H. rewrite Hf, Hg by auto. reflexivity. Qed.
Lemma inner_self : forall s f, inner s f f = RtoC (power2 s f).
Proof.
  intros s f. unfold inner, power2. apply C_eq.
  - rewrite re_grid_sum. cbn [re RtoC]. apply rgrid_sum_ext. intros. unfold Cn2. cbn [re Cmul Cconj im]. ring.
  - rewrite im_grid_sum. cbn [im RtoC]. transitivity (rgrid_sum s (fun i j k => 0 * 0)); [| rewrite rgrid_sum_scal; ring].
    apply rgrid_sum_ext. intros. cbn [re Cmul Cconj im]. ring.
Qed.
Lemma inner_add_l : forall s f f' g, inner s (fun i j k => f i j k + f' i j k)%C g = (inner s f g + inner s f' g)%C.
Proof. intros. unfold inner. rewrite <- grid_sum_add. apply grid_sum_ext. intros. ring. Qed.
Lemma inner_sub_l : forall s f f' g, inner s (fun i j k => f i j k - f' i j k)%C g = (inner s f g - inner s f' g)%C.
Proof. intros. unfold inner. rewrite <- grid_sum_sub. apply grid_sum_ext. intros. ring. Qed.
Lemma inner_scal_l : forall s c f g, inner s (fun i j k => c * f i j k)%C g = (c * inner s f g)%C.
Proof. intros. unfold inner. rewrite <- grid_sum_scal. apply grid_sum_ext. intros. ring. Qed.
Lemma inner_sub_r : forall s f g g', inner s f (fun i j k => g i j k - g' i j k)%C = (inner s f g - inner s f g')%C.
Proof. intros. unfold inner. rewrite <- grid_sum_sub. apply grid_sum_ext. intros. rewrite Cconj_sub. ring. Qed.
Definition wsum (s : shape3) (w : rfld) (f : fld) : R := rgrid_sum s (fun i j k => w i j k * Cn2 (f i j k)).
Lemma inner_eps : forall s (eps e : fld), inner s (fun i j k => eps i j k * e i j k)%C e =
  mkC (wsum s (fun i j k => re (eps i j k)) e) (wsum s (fun i j k => im (eps i j k)) e).
Proof.
  intros s eps e. unfold inner, wsum. apply C_eq; cbn [re im].
  - rewrite re_grid_sum. apply rgrid_sum_ext. intros. unfold Cn2. cbn [re Cmul Cconj im]. ring.
  - rewrite im_grid_sum. apply rgrid_sum_ext. intros. unfold Cn2. cbn [re Cmul Cconj im]. ring.
Qed.
(** ** Signs survive the average. *)
Lemma pred_bound : forall n m, (m < n)%nat -> (pred_p n m < n)%nat.
Proof. intros n m H. unfold pred_p. destruct m; lia. Qed.
Lemma eps_at_lin : forall s eps (L : C -> R) x, (forall a b, L (a + b)%C = L a + L b) -> (forall a, L (a / RtoC 2)%C = L a / 2) -> (forall a, L (a / RtoC 4)%C = L a / 4) ->
  (forall i j k, in_grid s i j k -> x <= L (eps i j k)) -> forall c i j k, in_grid s i j k -> x <= L (eps_at s eps c i j k).
Proof.
  intros s eps L x H1 H2 H4 H c i j k (Hi & Hj & Hk). pose proof (pred_bound _ _ Hi) as Hi'. pose proof (pred_bound _ _ Hj) as Hj'.
  unfold eps_at. destruct c; rewrite ?H2, ?H4, !H1.
  - pose proof (H i j k (conj Hi (conj Hj Hk))). pose proof (H i (pred_p (s AY) j) k (conj Hi (conj Hj' Hk))). lra.
  - pose proof (H i j k (conj Hi (conj Hj Hk))). pose proof (H (pred_p (s AX) i) j k (conj Hi' (conj Hj Hk))). lra.
  - pose proof (H i j k (conj Hi (conj Hj Hk))). pose proof (H (pred_p (s AX) i) j k (conj Hi' (conj Hj Hk))).
    pose proof (H i (pred_p (s AY) j) k (conj Hi (conj Hj' Hk))). pose proof (H (pred_p (s AX) i) (pred_p (s AY) j) k (conj Hi' (conj Hj' Hk))). lra.
Qed.
(** L z = p Re z + q Im z. *)
Lemma eps_at_form : forall s eps p q x, (forall i j k, in_grid s i j k -> x <= p * re (eps i j k) + q * im (eps i j k)) ->
  forall c i j k, in_grid s i j k -> x <= p * re (eps_at s eps c i j k) + q * im (eps_at s eps c i j k).
Proof.
  intros s eps p q x H. apply (eps_at_lin s eps (fun z => p * re z + q * im z) x); auto; intros; cbn [re im Cadd]; try ring;
    unfold Cdiv, Cinv, Cn2; cbn [re im RtoC Cmul]; field.
Qed.
Lemma wsum_lower : forall s w f x, (forall i j k, in_grid s i j k -> x <= w i j k) -> x * power2 s f <= wsum s w f.
Proof.
  intros s w f x H. unfold power2, wsum. rewrite <- rgrid_sum_scal. apply rgrid_sum_le. intros i j k Hg. specialize (H i j k Hg).
  apply Rmult_le_compat_r; auto. unfold Cn2. nra.
Qed.
Lemma wsum_lin : forall s p q w w' f, wsum s (fun i j k => p * w i j k + q * w' i j k) f = p * wsum s w f + q * wsum s w' f.
Proof.
  intros. unfold wsum. rewrite <- !rgrid_sum_scal, <- rgrid_sum_add. apply rgrid_sum_ext. intros. ring.
Qed.
Section D.
Variable d : cfdfd.
Let s := cf_shape d.
Let k0 := cf_k0 d.
Variable h : axis -> R.
Hypothesis Hf : cf_dxf d = uniform_dx h.
Hypothesis Hb : cf_dxb d = uniform_dx h.
Hypothesis Hk : 0 < k0.
Lemma dm_adj : forall f a g, inner s (dminus d f a) g = (- inner s f (dplus d g a))%C.
Proof. intros f a g. unfold dminus, dplus. rewrite Hf, Hb. apply quot_adjoint. Qed.
Lemma curl_adj : forall u v, vinner s (curl_of (dminus d) u) v = vinner s u (curl_of (dplus d) v).
Proof.
  intros u v. unfold vinner, curl_of.
  rewrite !inner_sub_l, !inner_sub_r, !dm_adj. ring.
Qed.
Lemma vinner_self : forall f, vinner s f f = RtoC (vpower2 s f).
Proof. intros f. unfold vinner, vpower2, sum3. rewrite !inner_self. apply C_eq; cbn [re im RtoC Cadd]; ring. Qed.
(** Power balance. *)
Lemma te_balance : forall src e, wave_te d src e ->
  RtoC (power2 s (dplus d e AX) + power2 s (dplus d e AY)) =
  (RtoC (k0 * k0) * mkC (wsum s (fun i j k => re (eps_at s (cf_eps d) AZ i j k)) e) (wsum s (fun i j k => im (eps_at s (cf_eps d) AZ i j k)) e) + RtoC k0 * inner s src e)%C.
Proof.
  intros src e W. unfold wave_te in W. fold s in W. fold k0 in W.
  rewrite <- inner_eps, <- !inner_scal_l, <- inner_add_l.
  transitivity (inner s (fun i j k => - dminus d (dplus d e AX) AX i j k - dminus d (dplus d e AY) AY i j k)%C e).
  - rewrite inner_sub_l. rewrite (inner_ext' s (fun i j k => - dminus d (dplus d e AX) AX i j k)%C e (fun i j k => (- C1) * dminus d (dplus d e AX) AX i j k)%C e); [| intros i j k _; ring | intros i j k _; reflexivity].
    fold s. rewrite inner_scal_l, !dm_adj, !inner_self. apply C_eq; cbn [re im RtoC Cadd Csub Copp Cmul C1]; ring.
  - apply (inner_ext' s); [| intros i j k _; reflexivity]. intros i j k Hg. rewrite W by exact Hg. ring.
Qed.
Lemma w3_balance : forall src e, wave3 d src e ->
  RtoC (vpower2 s (curl_of (dplus d) e)) =
  (RtoC (k0 * k0) * mkC (sum3 (fun c => wsum s (fun i j k => re (eps_at s (cf_eps d) c i j k)) (e c))) (sum3 (fun c => wsum s (fun i j k => im (eps_at s (cf_eps d) c i j k)) (e c)))
   + RtoC k0 * vinner s src e)%C.
Proof.
  intros src e W. unfold wave3 in W. fold s in W. fold k0 in W. rewrite <- vinner_self, <- curl_adj.
  assert (Q : forall c, inner s (curl_of (dminus d) (curl_of (dplus d) e) c) (e c) =
    (RtoC (k0 * k0) * mkC (wsum s (fun i j k => re (eps_at s (cf_eps d) c i j k)) (e c)) (wsum s (fun i j k => im (eps_at s (cf_eps d) c i j k)) (e c)) + RtoC k0 * inner s (src c) (e c))%C).
  { intros c. rewrite <- inner_eps, <- !inner_scal_l, <- inner_add_l. apply (inner_ext' s); [| intros i j k _; reflexivity].
    intros i j k Hg. rewrite W by exact Hg. ring. }
  unfold vinner. rewrite !Q. unfold sum3. apply C_eq; cbn [re im RtoC Cadd Cmul]; ring.
Qed.
Lemma tm_balance : forall src f, wave_tm d src f -> (forall c i j k, in_grid s i j k -> eps_at s (cf_eps d) c i j k <> C0) ->
  exists wx wy, (forall i j k, 0 <= wx i j k) /\ (forall i j k, 0 <= wy i j k) /\
  mkC (rgrid_sum s (fun i j k => re (eps_at s (cf_eps d) AY i j k) * wx i j k) + rgrid_sum s (fun i j k => re (eps_at s (cf_eps d) AX i j k) * wy i j k))
      (- (rgrid_sum s (fun i j k => im (eps_at s (cf_eps d) AY i j k) * wx i j k) + rgrid_sum s (fun i j k => im (eps_at s (cf_eps d) AX i j k) * wy i j k))) =
  (RtoC (k0 * k0) * RtoC (power2 s f) + RtoC k0 * inner s src f)%C.
Proof.
  intros src f W Hz. unfold wave_tm in W. fold s in W. fold k0 in W.
  exists (fun i j k => Cn2 (dplus d f AX i j k / eps_at s (cf_eps d) AY i j k)), (fun i j k => Cn2 (dplus d f AY i j k / eps_at s (cf_eps d) AX i j k)).
  split; [intros; unfold Cn2; nra |]. split; [intros; unfold Cn2; nra |].
  assert (G : forall a c, inner s (fun i j k => dplus d f a i j k / eps_at s (cf_eps d) c i j k)%C (dplus d f a) =
    mkC (rgrid_sum s (fun i j k => re (eps_at s (cf_eps d) c i j k) * Cn2 (dplus d f a i j k / eps_at s (cf_eps d) c i j k)))
        (- rgrid_sum s (fun i j k => im (eps_at s (cf_eps d) c i j k) * Cn2 (dplus d f a i j k / eps_at s (cf_eps d) c i j k)))).
  { intros a c. set (q := fun i j k => (dplus d f a i j k / eps_at s (cf_eps d) c i j k)%C).
    rewrite (inner_ext' s _ (dplus d f a) q (fun i j k => eps_at s (cf_eps d) c i j k * q i j k)%C); [| intros i j k _; reflexivity |].
    2:{ intros i j k Hg. unfold q. field. apply Hz; exact Hg. }
    fold s. unfold inner. apply C_eq; cbn [re im].
    - rewrite re_grid_sum. apply rgrid_sum_ext. intros i j k _. fold (q i j k). unfold Cn2. cbn [re Cmul Cconj im]. ring.
    - rewrite im_grid_sum, rgrid_sum_opp. apply rgrid_sum_ext. intros i j k _. fold (q i j k). unfold Cn2. cbn [re Cmul Cconj im]. ring. }
  rewrite <- inner_self, <- !inner_scal_l, <- inner_add_l.
  match type of W with forall i j k, _ -> (- dminus d ?A AX i j k - dminus d ?B AY i j k)%C = _ => set (u := A) in *; set (v := B) in * end.
  transitivity (inner s (fun i j k => - dminus d u AX i j k - dminus d v AY i j k)%C f).
  - rewrite inner_sub_l. rewrite (inner_ext' s (fun i j k => - dminus d u AX i j k)%C f (fun i j k => (- C1) * dminus d u AX i j k)%C f); [| intros i j k _; ring | intros i j k _; reflexivity].
    fold s. rewrite inner_scal_l, !dm_adj. unfold u, v. rewrite !G. apply C_eq; cbn [re im RtoC Cadd Csub Copp Cmul C1]; ring.
  - apply (inner_ext' s); [| intros i j k _; reflexivity]. intros i j k Hg. rewrite W by exact Hg. reflexivity.
Qed.
(** ** Bounds. *)
Lemma lossy_sign : forall sigma, lossy d sigma -> exists g, (g = 1 \/ g = -1) /\ forall c i j k, in_grid s i j k -> sigma <= g * im (eps_at s (cf_eps d) c i j k).
Proof.
  intros sigma (Hs & [H | H]).
  - exists 1. split; auto. intros c i j k Hg. pose proof (eps_at_form s (cf_eps d) 0 1 sigma) as E. assert (Q : forall i j k, in_grid s i j k -> sigma <= 0 * re (cf_eps d i j k) + 1 * im (cf_eps d i j k)) by (intros a b e Hab; specialize (H a b e Hab); lra).
    specialize (E Q c i j k Hg). lra.
  - exists (-1). split; auto. intros c i j k Hg. pose proof (eps_at_form s (cf_eps d) 0 (-1) sigma) as E. assert (Q : forall i j k, in_grid s i j k -> sigma <= 0 * re (cf_eps d i j k) + -1 * im (cf_eps d i j k)) by (intros a b e Hab; specialize (H a b e Hab); lra).
    specialize (E Q c i j k Hg). lra.
Qed.
Lemma eps_nz : forall sigma, lossy d sigma -> forall c i j k, in_grid s i j k -> eps_at s (cf_eps d) c i j k <> C0.
Proof.
  intros sigma L c i j k Hg E. pose proof L as (Hs & _). destruct (lossy_sign sigma L) as (g & [-> | ->] & H); specialize (H c i j k Hg); rewrite E in H; cbn [im C0] in H; lra.
Qed.
Lemma cancel_k0 : forall x y, k0 * k0 * x + k0 * y = 0 -> y = - (k0 * x).
Proof. intros x y H. apply (Rmult_eq_reg_l k0); [lra | lra]. Qed.
Lemma te_power : forall src e, wave_te d src e -> im (inner s src e) = - (k0 * wsum s (fun i j k => im (eps_at s (cf_eps d) AZ i j k)) e).
Proof. intros src e W. pose proof (f_equal im (te_balance src e W)) as E. cbn [re im RtoC Cadd Cmul] in E. apply cancel_k0. lra. Qed.
Lemma w3_power : forall src e, wave3 d src e -> im (vinner s src e) = - (k0 * sum3 (fun c => wsum s (fun i j k => im (eps_at s (cf_eps d) c i j k)) (e c))).
Proof. intros src e W. pose proof (f_equal im (w3_balance src e W)) as E. cbn [re im RtoC Cadd Cmul] in E. apply cancel_k0. lra. Qed.
Lemma sq_cancel : forall sigma p q x, 0 < sigma -> k0 * sigma * p <= x -> 2 * (k0 * sigma) * x <= q + k0 * sigma * (k0 * sigma) * p -> (k0 * sigma) * (k0 * sigma) * p <= q.
Proof.
  intros sigma p q x Hs H1 H2. assert (0 < k0 * sigma) by (apply Rmult_lt_0_compat; auto).
  pose proof (Rmult_le_compat_l (2 * (k0 * sigma)) _ _ ltac:(lra) H1). lra.
Qed.
Lemma te_bound : forall sigma src e, lossy d sigma -> wave_te d src e -> (k0 * sigma) * (k0 * sigma) * power2 s e <= power2 s src.
Proof.
  intros sigma src e L W. pose proof L as (Hs & _). destruct (lossy_sign sigma L) as (g & Hg & H).
  pose proof (te_power src e W) as E. set (Z := inner s src e) in *.
  pose proof (wsum_lower s (fun i j k => 0 * 0 + g * im (eps_at s (cf_eps d) AZ i j k)) e sigma ltac:(intros; specialize (H AZ i j k H0); lra)) as B.
  rewrite (wsum_lin s 0 g (fun _ _ _ => 0)) in B.
  pose proof (young s src e (mkC 0 g) (k0 * sigma)) as Y. fold Z in Y.
  assert (E1 : re (mkC 0 g * Z)%C = - g * im Z) by (cbn [re im Cmul]; ring). rewrite E1 in Y.
  assert (E2 : Cn2 (mkC 0 g) = 1) by (unfold Cn2; cbn [re im]; destruct Hg as [-> | ->]; ring). rewrite E2 in Y.
  apply (sq_cancel sigma _ _ (- g * im Z) Hs); [| lra]. rewrite E.
  replace (- g * - (k0 * wsum s (fun i j k => im (eps_at s (cf_eps d) AZ i j k)) e)) with (k0 * (g * wsum s (fun i j k => im (eps_at s (cf_eps d) AZ i j k)) e)) by ring.
  rewrite Rmult_assoc. apply Rmult_le_compat_l; lra.
Qed.
Lemma w3_bound : forall sigma src e, lossy d sigma -> wave3 d src e -> (k0 * sigma) * (k0 * sigma) * vpower2 s e <= vpower2 s src.
Proof.
  intros sigma src e L W. pose proof L as (Hs & _). destruct (lossy_sign sigma L) as (g & Hg & H).
  pose proof (w3_power src e W) as E.
  assert (B : forall c, sigma * power2 s (e c) <= g * wsum s (fun i j k => im (eps_at s (cf_eps d) c i j k)) (e c)).
  { intros c. pose proof (wsum_lower s (fun i j k => 0 * 0 + g * im (eps_at s (cf_eps d) c i j k)) (e c) sigma ltac:(intros; specialize (H c i j k H0); lra)) as B.
    rewrite (wsum_lin s 0 g (fun _ _ _ => 0)) in B. lra. }
  assert (E2 : Cn2 (mkC 0 g) = 1) by (unfold Cn2; cbn [re im]; destruct Hg as [-> | ->]; ring).
  assert (Y : 2 * (k0 * sigma) * (- g * im (vinner s src e)) <= vpower2 s src + (k0 * sigma) * (k0 * sigma) * vpower2 s e).
  { unfold vinner, vpower2, sum3. cbn [im Cadd].
    assert (Y : forall c, 2 * (k0 * sigma) * (- g * im (inner s (src c) (e c))) <= power2 s (src c) + (k0 * sigma) * (k0 * sigma) * power2 s (e c)).
    { intros c. pose proof (young s (src c) (e c) (mkC 0 g) (k0 * sigma)) as Y. rewrite E2 in Y.
      assert (E1 : re (mkC 0 g * inner s (src c) (e c))%C = - g * im (inner s (src c) (e c))) by (cbn [re im Cmul]; ring). rewrite E1 in Y. lra. }
    pose proof (Y AX). pose proof (Y AY). pose proof (Y AZ). lra. }
  apply (sq_cancel sigma _ _ (- g * im (vinner s src e)) Hs); [| lra]. rewrite E. unfold vpower2, sum3 in *.
  pose proof (B AX) as BX. pose proof (B AY) as BY. pose proof (B AZ) as BZ.
  set (X := wsum s _ (e AX)) in *. set (Y' := wsum s _ (e AY)) in *. set (Z := wsum s _ (e AZ)) in *.
  replace (- g * - (k0 * (X + Y' + Z))) with (k0 * (g * X + g * Y' + g * Z)) by ring.
  rewrite Rmult_assoc. apply Rmult_le_compat_l; lra.
Qed.
Lemma wide_ok : forall sigma kappa g, (g = 1 \/ g = -1) -> 0 < sigma -> (forall i j k, in_grid s i j k -> sigma <= g * im (cf_eps d i j k)) ->
  (forall i j k, in_grid s i j k -> Rabs (re (cf_eps d i j k)) <= kappa * Rabs (im (cf_eps d i j k))) ->
  forall c i j k, in_grid s i j k -> re (eps_at s (cf_eps d) c i j k) <= kappa * g * im (eps_at s (cf_eps d) c i j k).
Proof.
  intros sigma kappa g Hg Hs HL HK c i j k Hin.
  assert (Q : forall i j k, in_grid s i j k -> 0 <= -1 * re (cf_eps d i j k) + kappa * g * im (cf_eps d i j k)).
  { intros a b e Hab. specialize (HL a b e Hab). specialize (HK a b e Hab). pose proof (Rle_abs (re (cf_eps d a b e))) as A.
    assert (E : Rabs (im (cf_eps d a b e)) = g * im (cf_eps d a b e)).
    { destruct Hg as [-> | ->]; [rewrite Rabs_right; lra | rewrite Rabs_left; lra]. }
    rewrite E in HK. lra. }
  pose proof (eps_at_form s (cf_eps d) (-1) (kappa * g) 0 Q c i j k Hin). lra.
Qed.
Lemma tm_bound : forall sigma kappa src f, lossy d sigma -> (forall i j k, in_grid s i j k -> Rabs (re (cf_eps d i j k)) <= kappa * Rabs (im (cf_eps d i j k))) ->
  wave_tm d src f -> k0 * k0 * power2 s f <= (1 + kappa * kappa) * power2 s src.
Proof.
  intros sigma kappa src f L HK W. pose proof L as (Hs & L').
  assert (HG : exists g, (g = 1 \/ g = -1) /\ forall i j k, in_grid s i j k -> sigma <= g * im (cf_eps d i j k)).
  { destruct L' as [H | H]; [exists 1 | exists (-1)]; split; auto; intros i j k Hin; specialize (H i j k Hin); lra. }
  destruct HG as (g & Hg & HL). pose proof (wide_ok sigma kappa g Hg Hs HL HK) as HW.
  destruct (tm_balance src f W (eps_nz sigma L)) as (wx & wy & Px & Py & E). set (Z := inner s src f) in *.
  pose proof (f_equal re E) as E1. pose proof (f_equal im E) as E2. cbn [re im RtoC Cadd Cmul] in E1, E2.
  assert (B : forall c w, (forall i j k, 0 <= w i j k) -> rgrid_sum s (fun i j k => re (eps_at s (cf_eps d) c i j k) * w i j k) <= kappa * g * rgrid_sum s (fun i j k => im (eps_at s (cf_eps d) c i j k) * w i j k)).
  { intros c w Hw. rewrite <- rgrid_sum_scal. apply rgrid_sum_le. intros i j k Hin. rewrite <- Rmult_assoc. apply Rmult_le_compat_r; [apply Hw | apply HW; exact Hin]. }
  pose proof (B AY wx Px) as BX. pose proof (B AX wy Py) as BY.
  set (rx := rgrid_sum s (fun i j k => re (eps_at s (cf_eps d) AY i j k) * wx i j k)) in *. set (ry := rgrid_sum s (fun i j k => re (eps_at s (cf_eps d) AX i j k) * wy i j k)) in *.
  set (ix := rgrid_sum s (fun i j k => im (eps_at s (cf_eps d) AY i j k) * wx i j k)) in *. set (iy := rgrid_sum s (fun i j k => im (eps_at s (cf_eps d) AX i j k) * wy i j k)) in *.
  pose proof (young s src f (mkC (-1) (kappa * g)) k0) as Y. fold Z in Y.
  assert (E3 : re (mkC (-1) (kappa * g) * Z)%C = - re Z - kappa * g * im Z) by (cbn [re im Cmul]; ring). rewrite E3 in Y.
  assert (E4 : Cn2 (mkC (-1) (kappa * g)) = 1 + kappa * kappa) by (unfold Cn2; cbn [re im]; destruct Hg as [-> | ->]; ring). rewrite E4 in Y.
  set (P := power2 s f) in *. set (Q := power2 s src) in *.
  assert (M : k0 * k0 * P <= k0 * (- re Z - kappa * g * im Z)).
  { assert (E5 : kappa * g * (ix + iy) = - (kappa * g * (k0 * im Z))) by (replace (ix + iy) with (- (k0 * im Z)) by lra; ring). lra. }
  lra.
Qed.
End D.
