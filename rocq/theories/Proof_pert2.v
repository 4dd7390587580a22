(** Group index, its bound, and the 1-d cross section. *)
From Coq Require Import Reals List Arith ZArith Lra Lia Bool.
From Verif Require Import Cx Arr Model_coupling Model_yee Spec_yee Proof_yee Proof_yee2 Proof_yee3 Model_fdfd Spec_fdfd Proof_fdfd Proof_fdfd2 Model_grid Model_mode Spec_mode Proof_mode Proof_mode2 Spec_orth Proof_orth Proof_orth2 Spec_pert Proof_pert.
Import ListNotations.
Local Open Scope R_scope.

Lemma k0_deriv : forall l, l <> 0 -> derivable_pt_lim (fun w => 2 * PI / w) l (- (2 * PI / l) / l).
Proof.
  intros l Hl. 
  pose proof (derivable_pt_lim_div (fun _ => 2 * PI) id l 0 1 (derivable_pt_lim_const _ l) (derivable_pt_lim_id l) Hl) as D. unfold div_fct, id in D.
  replace (- (2 * PI / l) / l) with ((0 * l - 1 * (2 * PI)) / Rsqr l) by (unfold Rsqr; field; auto). exact D.
Qed.
Lemma weighted_add_w : forall s w w' f, weighted_sq s (fun c i j k => w c i j k + w' c i j k) f = weighted_sq s w f + weighted_sq s w' f.
Proof.
  intros. unfold weighted_sq, vinner.
  assert (G : forall c, inner s (fun i j k => RtoC (w c i j k + w' c i j k) * f c i j k)%C (f c) = (inner s (fun i j k => RtoC (w c i j k) * f c i j k)%C (f c) + inner s (fun i j k => RtoC (w' c i j k) * f c i j k)%C (f c))%C).
  { intro c. rewrite <- (inner_add_l s (fun i j k => RtoC (w c i j k) * f c i j k)%C (fun i j k => RtoC (w' c i j k) * f c i j k)%C). apply inner_ext; auto. intros. apply C_eq; cbn; ring. }
  rewrite !G. cbn [re Cadd]. ring.
Qed.
Lemma weighted_scal_w : forall s a w f, weighted_sq s (fun c i j k => a * w c i j k) f = a * weighted_sq s w f.
Proof.
  intros. unfold weighted_sq. 
  rewrite (vinner_ext s (fun c i j k => RtoC (a * w c i j k) * f c i j k)%C f (fun c i j k => RtoC a * (RtoC (w c i j k) * f c i j k))%C f); auto.
  - rewrite (vinner_scal_l s (RtoC a) (fun c i j k => RtoC (w c i j k) * f c i j k)%C). cbn [re im Cmul RtoC]. ring.
  - intros. apply C_eq; cbn; ring.
Qed.

(** dn / dlambda = (n - ng) / lambda *)
Lemma group_index : forall q m l0 r, l0 <> 0 -> mode_family (fun l => update_wavelength q l) m l0 r -> let s := q_shape q in let q0 := update_wavelength q l0 in
  field_cont s (fun l => lib_e (update_wavelength q l) (m l)) l0 -> field_cont s (fun l => lib_h (update_wavelength q l) (m l)) l0 ->
  power2 q0 (m l0) <> 0 ->
  let ng := (weighted_sq s (fun _ _ _ _ => 1) (lib_h q0 (m l0)) + weighted_sq s (edge_eps s (q_eps q)) (lib_e q0 (m l0))) / power2 q0 (m l0) in
  derivable_pt_lim (fun l => m_beta (m l)) l0 (ng * (- (2 * PI / l0) / l0)) /\
  derivable_pt_lim (fun l => m_beta (m l) / (2 * PI / l)) l0 ((m_beta (m l0) / (2 * PI / l0) - ng) / l0).
Proof.
  intros q m l0 r Hl Hf s q0 He Hh Hp ng. pose proof (k0_deriv l0 Hl) as K.
  assert (D : derivable_pt_lim (fun l => m_beta (m l)) l0 (ng * (- (2 * PI / l0) / l0))).
  { pose proof (pert_deriv (fun l => update_wavelength q l) m l0 r (- (2 * PI / l0) / l0) (fun c i j k => (- (2 * PI / l0) / l0) * edge_eps s (q_eps q) c i j k) Hf) as P.
    cbv zeta in P. cbv beta in P. change (q_shape (update_wavelength q l0)) with s in P. specialize (P He Hh K).
    assert (W : forall c i j k, in_grid s i j k -> derivable_pt_lim (fun t => q_k0 (update_wavelength q t) * edge_eps s (q_eps (update_wavelength q t)) c i j k) l0 (- (2 * PI / l0) / l0 * edge_eps s (q_eps q) c i j k)).
    { intros c i j k _. change (derivable_pt_lim (fun t => (2 * PI / t) * edge_eps s (q_eps q) c i j k) l0 (- (2 * PI / l0) / l0 * edge_eps s (q_eps q) c i j k)).
      apply (deriv_local _ (fun t => edge_eps s (q_eps q) c i j k * (2 * PI / t)) l0 _ 1 Rlt_0_1); [intros; ring |].
      rewrite (Rmult_comm (- (2 * PI / l0) / l0)). apply (derivable_pt_lim_scal (fun t => 2 * PI / t)). exact K. }
    specialize (P W Hp). rewrite weighted_scal_w in P. fold q0 in P.
    replace (ng * (- (2 * PI / l0) / l0)) with ((- (2 * PI / l0) / l0 * weighted_sq s (fun _ _ _ _ => 1) (lib_h q0 (m l0)) +
      - (2 * PI / l0) / l0 * weighted_sq s (edge_eps s (q_eps q)) (lib_e q0 (m l0))) / power2 q0 (m l0)) by (unfold ng; field; auto).
    exact P. }
  split; [exact D |].
  pose proof PI_RGT_0 as HPI.
  assert (Hla : 0 < Rabs l0) by (apply Rabs_pos_lt; auto).
  apply (deriv_local _ (fun l => / (2 * PI) * (m_beta (m l) * l)) l0 _ (Rabs l0) Hla).
  - intros t Ht. assert (t <> 0) by (intro E; subst; replace (0 - l0) with (- l0) in Ht by ring; rewrite Rabs_Ropp in Ht; lra). field. split; lra.
  - replace ((m_beta (m l0) / (2 * PI / l0) - ng) / l0) with (/ (2 * PI) * (ng * (- (2 * PI / l0) / l0) * l0 + m_beta (m l0) * 1)) by (field; split; lra).
    apply (derivable_pt_lim_scal (fun l => m_beta (m l) * l)). apply (derivable_pt_lim_mult (fun l => m_beta (m l)) (fun l => l)); [exact D | apply derivable_pt_lim_id].
Qed.

Lemma grid_sum_re_le : forall s f g, (forall i j k, in_grid s i j k -> re (f i j k) <= re (g i j k)) -> re (grid_sum s f) <= re (grid_sum s g).
Proof.
  assert (S1 : forall n f g, (forall i, (i < n)%nat -> re (f i) <= re (g i)) -> re (Csum n f) <= re (Csum n g)).
  { induction n; intros f g H; cbn [Csum re C0 Cadd]; [lra |]. specialize (IHn f g ltac:(intros; apply H; lia)). specialize (H n ltac:(lia)). cbn. lra. }
  intros s f g H. unfold grid_sum. apply S1; intros i Hi. apply S1; intros j Hj. apply S1; intros k Hk. apply H. repeat split; assumption.
Qed.
(** Light does not travel faster than in the least dense material. *)
Lemma power_bound : forall s (w : axis -> rfld) e h n, 0 <= n -> (forall c i j k, in_grid s i j k -> n * n <= w c i j k) ->
  n * Rabs (2 * re (cross_power s e h)) <= weighted_sq s (fun _ _ _ _ => 1) h + weighted_sq s w e.
Proof.
  intros s w e h n Hn Hw.
  assert (G : forall sg, sg = 1 \/ sg = -1 -> re (grid_sum s (fun i j k => RtoC (sg * (2 * n)) * power_along AZ (fun c => e c i j k) (fun c => h c i j k))%C) <= weighted_sq s (fun _ _ _ _ => 1) h + weighted_sq s w e).
  { intros sg Hsg. unfold weighted_sq, vinner, inner. cbn [re Cadd]. 
    rewrite <- !Rplus_assoc.
    repeat match goal with |- context [re ?a + re ?b] => change (re a + re b) with (re (a + b)%C) end.
    rewrite <- !grid_sum_add. apply grid_sum_re_le. intros i j k H.
    pose proof (Hw AX i j k H) as WX. pose proof (Hw AY i j k H) as WY. pose proof (Hw AZ i j k H) as WZ.
    cbn [power_along re im Cmul Cadd Csub Copp Cconj RtoC].
    generalize (re (e AX i j k)) (im (e AX i j k)) (re (e AY i j k)) (im (e AY i j k)) (re (e AZ i j k)) (im (e AZ i j k)).
    generalize (re (h AX i j k)) (im (h AX i j k)) (re (h AY i j k)) (im (h AY i j k)) (re (h AZ i j k)) (im (h AZ i j k)).
    intros a b c d a5 a6 x y z t x5 x6.
    generalize dependent (w AX i j k). generalize dependent (w AY i j k). generalize dependent (w AZ i j k). intros wz WZ wy WY wx WX.
    assert (0 <= (wx - n * n) * (x * x + y * y)) by (apply Rmult_le_pos; nra).
    assert (0 <= (wy - n * n) * (z * z + t * t)) by (apply Rmult_le_pos; nra).
    assert (0 <= wz * (x5 * x5 + x6 * x6)) by (apply Rmult_le_pos; nra).
    assert (0 <= a5 * a5 + a6 * a6) by nra.
    destruct Hsg as [-> | ->].
    - pose proof (Rle_0_sqr (n * x - c)) as S1. pose proof (Rle_0_sqr (n * y - d)) as S2. pose proof (Rle_0_sqr (n * z + a)) as S3. pose proof (Rle_0_sqr (n * t + b)) as S4.
      unfold Rsqr in *. lra.
    - pose proof (Rle_0_sqr (n * x + c)) as S1. pose proof (Rle_0_sqr (n * y + d)) as S2. pose proof (Rle_0_sqr (n * z - a)) as S3. pose proof (Rle_0_sqr (n * t - b)) as S4.
      unfold Rsqr in *. lra. }
  rewrite <- (Rabs_pos_eq n Hn) at 1. rewrite <- Rabs_mult. unfold cross_power.
  assert (X : forall sg, re (grid_sum s (fun i j k => RtoC (sg * (2 * n)) * power_along AZ (fun c => e c i j k) (fun c => h c i j k))%C) = sg * (n * (2 * re (cross_power s e h)))).
  { intro sg. rewrite (grid_sum_scal s (RtoC (sg * (2 * n))) (fun i j k => power_along AZ (fun c => e c i j k) (fun c => h c i j k))). unfold cross_power. cbn [re im Cmul RtoC]. ring. }
  pose proof (G 1 ltac:(auto)) as G1. pose proof (G (-1) ltac:(auto)) as G2. rewrite X in G1, G2. unfold cross_power in G1, G2.
  unfold Rabs. destruct (Rcase_abs _); lra.
Qed.
Lemma edge_eps_ge : forall q M, (forall i j k, in_grid (q_shape q) i j k -> M <= q_eps q i j k) -> forall c i j k, in_grid (q_shape q) i j k -> M <= edge_eps (q_shape q) (q_eps q) c i j k.
Proof.
  intros q M H c i j k (Hi & Hj & Hk).
  assert (B1 : (below (q_shape q AX) i < q_shape q AX)%nat) by (destruct i; cbn; lia).
  assert (B2 : (below (q_shape q AY) j < q_shape q AY)%nat) by (destruct j; cbn; lia).
  pose proof (H i j k (conj Hi (conj Hj Hk))). pose proof (H (below (q_shape q AX) i) j k (conj B1 (conj Hj Hk))).
  pose proof (H i (below (q_shape q AY) j) k (conj Hi (conj B2 Hk))). pose proof (H (below (q_shape q AX) i) (below (q_shape q AY) j) k (conj B1 (conj B2 Hk))).
  unfold edge_eps. destruct c; lra.
Qed.
Lemma group_bound : forall q m n, 0 <= n -> (forall i j k, in_grid (q_shape q) i j k -> n * n <= q_eps q i j k) -> power2 q m <> 0 ->
  n <= Rabs ((weighted_sq (q_shape q) (fun _ _ _ _ => 1) (lib_h q m) + weighted_sq (q_shape q) (edge_eps (q_shape q) (q_eps q)) (lib_e q m)) / power2 q m).
Proof.
  intros q m n Hn He Hp. pose proof (power_bound (q_shape q) (edge_eps (q_shape q) (q_eps q)) (lib_e q m) (lib_h q m) n Hn (edge_eps_ge q (n * n) He)) as B.
  fold (power2 q m) in B. set (X := weighted_sq (q_shape q) (fun _ _ _ _ => 1) (lib_h q m) + weighted_sq (q_shape q) (edge_eps (q_shape q) (q_eps q)) (lib_e q m)) in *.
  assert (0 < Rabs (power2 q m)) by (apply Rabs_pos_lt; exact Hp).
  assert (0 <= X) by (pose proof (Rmult_le_pos _ _ Hn (Rlt_le _ _ H)); lra).
  unfold Rdiv. rewrite Rabs_mult, Rabs_inv, (Rabs_pos_eq X) by assumption.
  apply (Rmult_le_reg_r (Rabs (power2 q m))); [assumption |]. rewrite Rmult_assoc, Rinv_l by lra. lra.
Qed.

(** ** 1-d cross sections. *)
Lemma eig1_two : forall q1 q2 lam1 v1 lam2 v2, q_shape q1 = q_shape q2 -> q_h q1 = q_h q2 -> eigen1 q1 (RtoC lam1) v1 -> eigen1 q2 (RtoC lam2) v2 ->
  let s := q_shape q2 in
  (RtoC (lam1 - lam2) * vdot (q_n q2) v1 v2)%C =
  inner s (fun i j k => RtoC (q_k0 q1 * q_k0 q1 * q_eps q1 i j k - q_k0 q2 * q_k0 q2 * q_eps q2 i j k) * unravel_f s v1 i j k)%C (unravel_f s v2).
Proof.
  intros q1 q2 lam1 v1 lam2 v2 Hs Hh H1 H2 s. unfold q_n. rewrite vdot_inner. fold s.
  pose proof (eig1_id q1 _ v1 v2 H1) as P. pose proof (eig1_id q2 _ v2 v1 H2) as Q. unfold q_dx in P, Q. rewrite Hs, Hh in P. fold s in P, Q.
  apply (f_equal Cconj) in Q. rewrite Cconj_sub, !Cconj_mul, <- !inner_conj in Q.
  assert (Hc : forall x, Cconj (RtoC x) = RtoC x) by (intro; apply C_eq; cbn; ring). rewrite !Hc in Q.
  change (@unravel_f s) with (@unravel s).
  assert (X : inner s (unravel s v1) (fun i j k => RtoC (q_eps q2 i j k) * unravel s v2 i j k)%C = inner s (fun i j k => RtoC (q_eps q2 i j k) * unravel s v1 i j k)%C (unravel s v2)).
  { unfold inner. apply grid_sum_ext. intros. rewrite Cconj_mul, Hc. ring. }
  rewrite X in Q.
  rewrite (inner_ext s (fun i j k => RtoC (q_k0 q1 * q_k0 q1 * q_eps q1 i j k - q_k0 q2 * q_k0 q2 * q_eps q2 i j k) * unravel s v1 i j k)%C (unravel s v2) (fun i j k => RtoC (q_k0 q1 * q_k0 q1) * (RtoC (q_eps q1 i j k) * unravel s v1 i j k) - RtoC (q_k0 q2 * q_k0 q2) * (RtoC (q_eps q2 i j k) * unravel s v1 i j k))%C (unravel s v2)); auto;
    [| intros; apply C_eq; cbn; ring].
  rewrite (inner_sub_l s (fun i j k => RtoC (q_k0 q1 * q_k0 q1) * (RtoC (q_eps q1 i j k) * unravel s v1 i j k))%C (fun i j k => RtoC (q_k0 q2 * q_k0 q2) * (RtoC (q_eps q2 i j k) * unravel s v1 i j k))%C).
  rewrite (inner_scal_l s (RtoC (q_k0 q1 * q_k0 q1)) (fun i j k => RtoC (q_eps q1 i j k) * unravel s v1 i j k)%C), (inner_scal_l s (RtoC (q_k0 q2 * q_k0 q2)) (fun i j k => RtoC (q_eps q2 i j k) * unravel s v1 i j k)%C).
  replace (RtoC (lam1 - lam2)) with (RtoC lam1 - RtoC lam2)%C by (apply C_eq; cbn; ring).
  transitivity (RtoC lam1 * inner s (unravel s v1) (unravel s v2) - RtoC lam2 * inner s (unravel s v1) (unravel s v2))%C; [ring |].
  rewrite P, Q. ring.
Qed.
Lemma vdot_unravel : forall q v w, vdot (q_n q) v w = inner (q_shape q) (unravel_f (q_shape q) v) (unravel_f (q_shape q) w).
Proof. intros. unfold q_n. rewrite vdot_inner. reflexivity. Qed.
Lemma deriv_1d : forall q beta v t0 r (dw : rfld), mode_family1 q beta v t0 r ->
  (forall i j k, in_grid (q_shape (q t0)) i j k -> derivable_pt_lim (fun t => q_k0 (q t) * q_k0 (q t) * q_eps (q t) i j k) t0 (dw i j k)) ->
  derivable_pt_lim beta t0 (weighted_sq1 (q t0) dw (v t0) / (2 * beta t0 * weighted_sq1 (q t0) (fun _ _ _ => 1) (v t0))).
Proof.
  intros q beta v t0 r dw (Hr & Hf & Hc & Hn) Hw. set (s := q_shape (q t0)) in *.
  assert (E0 : Rabs (t0 - t0) < r) by (replace (t0 - t0) with 0 by ring; rewrite Rabs_R0; exact Hr).
  destruct (Hf t0 E0) as (_ & _ & B0 & M0).
  set (W := fun t i j k => q_k0 (q t) * q_k0 (q t) * q_eps (q t) i j k).
  set (D := fun t => re (inner s (unravel_f s (v t)) (unravel_f s (v t0)))).
  assert (Hcu : forall i j k, in_grid s i j k -> ccont (fun t => unravel_f s (v t) i j k) t0).
  { intros i j k H. apply Hc. apply ridx_bound; exact H. }
  assert (D0 : 0 < D t0) by (exact (nonzero_pos (q t0) (v t0) Hn)).
  assert (L : derivable_pt_lim (fun t => beta t * beta t) t0 (weighted_sq1 (q t0) dw (v t0) / D t0)).
  { apply (deriv_quotient (fun t => beta t * beta t) D (fun t => re (inner s (fun i j k => RtoC (W t i j k - W t0 i j k) * unravel_f s (v t) i j k)%C (unravel_f s (v t0)))) t0 _ r Hr).
    - intros t Ht. destruct (Hf t Ht) as (Hs & Hh & B & M).
      pose proof (eig1_two (q t) (q t0) _ (v t) _ (v t0) Hs Hh M M0) as X. cbv zeta in X. rewrite vdot_unravel in X. fold s in X.
      apply (f_equal re) in X. unfold W. rewrite <- X. unfold D. cbn [re im Cmul RtoC]. ring.
    - apply cc_grid. intros i j k H. apply cc_mul; [apply Hcu; exact H | apply cc_const].
    - lra.
    - unfold weighted_sq1. fold s. apply (deriv_inner s W dw (fun t => unravel_f s (v t))); [exact Hw | exact Hcu]. }
  assert (E1 : weighted_sq1 (q t0) (fun _ _ _ => 1) (v t0) = D t0).
  { unfold weighted_sq1, D. fold s. rewrite (inner_scal_l s (RtoC 1) (unravel_f s (v t0))). cbn [re im Cmul RtoC]. ring. }
  rewrite E1.
  apply (deriv_local beta (fun t => sqrt (beta t * beta t)) t0 _ r Hr).
  - intros t Ht. destruct (Hf t Ht) as (_ & _ & B & _). symmetry. apply sqrt_square. lra.
  - replace (weighted_sq1 (q t0) dw (v t0) / (2 * beta t0 * D t0)) with (/ (2 * sqrt (beta t0 * beta t0)) * (weighted_sq1 (q t0) dw (v t0) / D t0)) by (rewrite sqrt_square by lra; field; split; lra).
    apply (derivable_pt_lim_comp (fun t => beta t * beta t) sqrt); [exact L | apply derivable_pt_lim_sqrt; apply Rmult_lt_0_compat; exact B0].
Qed.
Lemma weighted1_scal : forall q a w v, weighted_sq1 q (fun i j k => a * w i j k) v = a * weighted_sq1 q w v.
Proof.
  intros. unfold weighted_sq1.
  rewrite (inner_ext (q_shape q) (fun i j k => RtoC (a * w i j k) * unravel_f (q_shape q) v i j k)%C (unravel_f (q_shape q) v) (fun i j k => RtoC a * (RtoC (w i j k) * unravel_f (q_shape q) v i j k))%C (unravel_f (q_shape q) v)); auto.
  - rewrite (inner_scal_l (q_shape q) (RtoC a) (fun i j k => RtoC (w i j k) * unravel_f (q_shape q) v i j k)%C). cbn [re im Cmul RtoC]. ring.
  - intros. apply C_eq; cbn [re im Cmul RtoC]; ring.
Qed.
(** n ng = mean permittivity, weighted by |v|^2. *)
Lemma group_1d : forall q beta v l0 r, l0 <> 0 -> mode_family1 (fun l => update_wavelength q l) beta v l0 r ->
  let n := beta l0 / (2 * PI / l0) in
  exists ng, derivable_pt_lim beta l0 (ng * (- (2 * PI / l0) / l0)) /\
    derivable_pt_lim (fun l => beta l / (2 * PI / l)) l0 ((n - ng) / l0) /\
    n * ng * weighted_sq1 q (fun _ _ _ => 1) (v l0) = weighted_sq1 q (q_eps q) (v l0).
Proof.
  intros q beta v l0 r Hl Hf n. pose proof PI_RGT_0 as HPI. pose proof Hf as (Hr & Hf' & _ & Hn).
  assert (E0 : Rabs (l0 - l0) < r) by (replace (l0 - l0) with 0 by ring; rewrite Rabs_R0; exact Hr).
  destruct (Hf' l0 E0) as (_ & _ & B0 & _).
  assert (P0 : 0 < weighted_sq1 q (fun _ _ _ => 1) (v l0)).
  { unfold weighted_sq1. rewrite (inner_scal_l (q_shape q) (RtoC 1) (unravel_f (q_shape q) (v l0))). cbn [re im Cmul RtoC].
    pose proof (nonzero_pos q (v l0) Hn) as X. change (@unravel (q_shape q) (v l0)) with (unravel_f (q_shape q) (v l0)) in X. lra. }
  exists (weighted_sq1 q (q_eps q) (v l0) / (n * weighted_sq1 q (fun _ _ _ => 1) (v l0))).
  assert (Hn0 : n <> 0) by (unfold n; apply Rmult_integral_contrapositive_currified; [lra | apply Rinv_neq_0_compat; apply Rmult_integral_contrapositive_currified; [lra | apply Rinv_neq_0_compat; lra]]).
  set (ng := weighted_sq1 q (q_eps q) (v l0) / (n * weighted_sq1 q (fun _ _ _ => 1) (v l0))).
  assert (D : derivable_pt_lim beta l0 (ng * (- (2 * PI / l0) / l0))).
  { set (d := - (2 * PI / l0) / l0).
    pose proof (deriv_1d (fun l => update_wavelength q l) beta v l0 r (fun i j k => (2 * (2 * PI / l0) * d) * q_eps q i j k) Hf) as P. cbv beta in P.
    assert (Hw : forall i j k, in_grid (q_shape (update_wavelength q l0)) i j k ->
      derivable_pt_lim (fun t => q_k0 (update_wavelength q t) * q_k0 (update_wavelength q t) * q_eps (update_wavelength q t) i j k) l0 (2 * (2 * PI / l0) * d * q_eps q i j k)).
    { intros i j k _. change (derivable_pt_lim (fun t => (2 * PI / t) * (2 * PI / t) * q_eps q i j k) l0 (2 * (2 * PI / l0) * d * q_eps q i j k)).
      apply (deriv_local _ (fun t => q_eps q i j k * ((2 * PI / t) * (2 * PI / t))) l0 _ 1 Rlt_0_1); [intros; ring |].
      replace (2 * (2 * PI / l0) * d * q_eps q i j k) with (q_eps q i j k * (d * (2 * PI / l0) + (2 * PI / l0) * d)) by ring.
      apply (derivable_pt_lim_scal (fun t => (2 * PI / t) * (2 * PI / t))). apply (derivable_pt_lim_mult (fun t => 2 * PI / t) (fun t => 2 * PI / t)); apply k0_deriv; exact Hl. }
    specialize (P Hw). rewrite weighted1_scal in P.
    change (weighted_sq1 (update_wavelength q l0)) with (weighted_sq1 q) in P.
    replace (ng * d) with (2 * (2 * PI / l0) * d * weighted_sq1 q (q_eps q) (v l0) / (2 * beta l0 * weighted_sq1 q (fun _ _ _ => 1) (v l0))); [exact P |].
    unfold ng, n. field. repeat split; lra. }
  split; [exact D | split].
  - assert (Hla : 0 < Rabs l0) by (apply Rabs_pos_lt; auto).
    apply (deriv_local _ (fun l => / (2 * PI) * (beta l * l)) l0 _ (Rabs l0) Hla).
    + intros t Ht. assert (t <> 0) by (intro E; subst; replace (0 - l0) with (- l0) in Ht by ring; rewrite Rabs_Ropp in Ht; lra). field. split; lra.
    + replace ((n - ng) / l0) with (/ (2 * PI) * (ng * (- (2 * PI / l0) / l0) * l0 + beta l0 * 1)) by (unfold n; field; split; lra).
      apply (derivable_pt_lim_scal (fun l => beta l * l)). apply (derivable_pt_lim_mult beta (fun l => l)); [exact D | apply derivable_pt_lim_id].
  - unfold ng. field. split; lra.
Qed.
Lemma grid_re_pos : forall s F i j k, (forall i j k, in_grid s i j k -> 0 <= re (F i j k)) -> in_grid s i j k -> 0 < re (F i j k) -> 0 < re (grid_sum s F).
Proof.
  intros s F i j k H Hg Hp. set (f := fun i j k => RtoC (sqrt (re (F i j k)))).
  assert (P : 0 < re (inner s f f)).
  { apply (inner_re_pos s f i j k Hg). unfold f. apply RtoC_neq0. apply Rgt_not_eq. apply sqrt_lt_R0. exact Hp. }
  eapply Rlt_le_trans; [exact P |]. apply grid_re_le. intros x y z Hx. unfold f. cbn [re im Cmul Cconj RtoC]. rewrite sqrt_sqrt by (apply H; exact Hx). lra.
Qed.
Lemma mono_1d : forall q1 q2 lam1 v1 lam2 v2, q_shape q1 = q_shape q2 -> q_h q1 = q_h q2 -> (0 < q_n q2)%nat ->
  eigen1 q1 (RtoC lam1) v1 -> eigen1 q2 (RtoC lam2) v2 -> positive_array (q_n q2) v1 -> positive_array (q_n q2) v2 ->
  (forall i j k, in_grid (q_shape q2) i j k -> q_k0 q2 * q_k0 q2 * q_eps q2 i j k <= q_k0 q1 * q_k0 q1 * q_eps q1 i j k) ->
  lam2 <= lam1 /\ ((exists i j k, in_grid (q_shape q2) i j k /\ q_k0 q2 * q_k0 q2 * q_eps q2 i j k < q_k0 q1 * q_k0 q1 * q_eps q1 i j k) -> lam2 < lam1).
Proof.
  intros q1 q2 lam1 v1 lam2 v2 Hs Hh Hn H1 H2 P1 P2 Hle. set (s := q_shape q2) in *.
  pose proof (eig1_two q1 q2 lam1 v1 lam2 v2 Hs Hh H1 H2) as X. cbv zeta in X. fold s in X. rewrite vdot_unravel in X. fold s in X. apply (f_equal re) in X.
  assert (R0 : forall x z, re (RtoC x * z)%C = x * re z) by (intros; cbn; ring). rewrite R0 in X.
  assert (V : forall i j k, in_grid s i j k -> 0 < re (unravel_f s v1 i j k * Cconj (unravel_f s v2 i j k))%C).
  { intros i j k H. destruct (P1 (ridx s i j k) (ridx_bound s i j k H)) as [A1 B1]. destruct (P2 (ridx s i j k) (ridx_bound s i j k H)) as [A2 B2].
    unfold unravel_f. cbn [re im Cmul Cconj]. rewrite B1, B2. pose proof (Rmult_lt_0_compat _ _ A1 A2). lra. }
  assert (VP : 0 < re (inner s (unravel_f s v1) (unravel_f s v2))).
  { destruct (ridx_inv s 0 Hn) as (i & j & k & Hg & _). apply (grid_re_pos s _ i j k); [intros; apply Rlt_le, V; assumption | exact Hg | apply V; exact Hg]. }
  set (w := fun i j k => q_k0 q1 * q_k0 q1 * q_eps q1 i j k - q_k0 q2 * q_k0 q2 * q_eps q2 i j k).
  assert (T : forall i j k, re (RtoC (w i j k) * unravel_f s v1 i j k * Cconj (unravel_f s v2 i j k))%C = w i j k * re (unravel_f s v1 i j k * Cconj (unravel_f s v2 i j k))%C) by (intros; cbn [re im Cmul Cconj RtoC]; ring).
  assert (NN : forall i j k, in_grid s i j k -> 0 <= re (RtoC (w i j k) * unravel_f s v1 i j k * Cconj (unravel_f s v2 i j k))%C).
  { intros i j k H. rewrite T. apply Rmult_le_pos; [unfold w; specialize (Hle i j k H); lra | apply Rlt_le, V; exact H]. }
  split.
  - assert (Q : 0 <= (lam1 - lam2) * re (inner s (unravel_f s v1) (unravel_f s v2))) by (rewrite X; apply grid_re_nonneg; exact NN). 
    destruct (Rle_lt_dec lam2 lam1) as [| N]; [assumption | exfalso]. assert (0 < (lam2 - lam1) * re (inner s (unravel_f s v1) (unravel_f s v2))) by (apply Rmult_lt_0_compat; lra). lra.
  - intros (i & j & k & Hg & Hlt).
    assert (Q : 0 < (lam1 - lam2) * re (inner s (unravel_f s v1) (unravel_f s v2))).
    { rewrite X. apply (grid_re_pos s _ i j k NN Hg). rewrite T. apply Rmult_lt_0_compat; [unfold w; lra | apply V; exact Hg]. }
    destruct (Rlt_le_dec lam2 lam1) as [| N]; [assumption | exfalso]. assert (0 <= (lam2 - lam1) * re (inner s (unravel_f s v1) (unravel_f s v2))) by (apply Rmult_le_pos; lra). lra.
Qed.
Lemma weighted1_le : forall q w w' v, (forall i j k, in_grid (q_shape q) i j k -> w i j k <= w' i j k) -> weighted_sq1 q w v <= weighted_sq1 q w' v.
Proof.
  intros q w w' v H. unfold weighted_sq1, inner. apply grid_re_le. intros i j k Hg. specialize (H i j k Hg). generalize (unravel_f (q_shape q) v i j k). intros [x y].
  cbn [re im Cmul Cconj RtoC]. assert (0 <= (w' i j k - w i j k) * (x * x + y * y)) by (apply Rmult_le_pos; [lra |]; pose proof (Rle_0_sqr x) as A; pose proof (Rle_0_sqr y) as B; unfold Rsqr in *; lra). lra.
Qed.
Lemma group_1d_range : forall q beta v l0 r lo hi, l0 <> 0 -> mode_family1 (fun l => update_wavelength q l) beta v l0 r ->
  (forall i j k, in_grid (q_shape q) i j k -> lo <= q_eps q i j k <= hi) ->
  let n := beta l0 / (2 * PI / l0) in
  exists ng, derivable_pt_lim beta l0 (ng * (- (2 * PI / l0) / l0)) /\
    derivable_pt_lim (fun l => beta l / (2 * PI / l)) l0 ((n - ng) / l0) /\
    n * ng * weighted_sq1 q (fun _ _ _ => 1) (v l0) = weighted_sq1 q (q_eps q) (v l0) /\ lo <= n * ng <= hi.
Proof.
  intros q beta v l0 r lo hi Hl Hf He n. destruct (group_1d q beta v l0 r Hl Hf) as (ng & A & B & E). fold n in B, E. exists ng. repeat (split; [assumption |]).
  destruct Hf as (_ & _ & _ & Hn).
  assert (P0 : 0 < weighted_sq1 q (fun _ _ _ => 1) (v l0)).
  { unfold weighted_sq1. rewrite (inner_scal_l (q_shape q) (RtoC 1) (unravel_f (q_shape q) (v l0))). cbn [re im Cmul RtoC].
    pose proof (nonzero_pos q (v l0) Hn) as X. change (@unravel (q_shape q) (v l0)) with (unravel_f (q_shape q) (v l0)) in X. lra. }
  pose proof (weighted1_le q (fun i j k => lo * 1) (q_eps q) (v l0) ltac:(intros i j k H; specialize (He i j k H); lra)) as L.
  pose proof (weighted1_le q (q_eps q) (fun i j k => hi * 1) (v l0) ltac:(intros i j k H; specialize (He i j k H); lra)) as U.
  rewrite (weighted1_scal q lo (fun _ _ _ => 1)) in L. rewrite (weighted1_scal q hi (fun _ _ _ => 1)) in U. rewrite <- E in L, U.
  split; apply (Rmult_le_reg_r (weighted_sq1 q (fun _ _ _ => 1) (v l0))); assumption.
Qed.
