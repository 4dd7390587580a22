(** The response of the propagation constant of a mode: exact identity between two solvers, and its derivative. *)
From Coq Require Import Reals List Arith ZArith Lra Lia Bool.
From Verif Require Import Cx Arr Model_coupling Model_yee Spec_yee Proof_yee Proof_yee2 Proof_yee3 Model_fdfd Spec_fdfd Proof_fdfd Proof_fdfd2 Model_grid Model_mode Spec_mode Proof_mode Proof_mode2 Spec_orth Proof_orth Proof_orth2 Spec_pert.
Import ListNotations.
Local Open Scope R_scope.

Lemma edge_eps_t : forall q c i j k, in_grid (q_shape q) i j k -> edge_eps (q_shape q) (q_eps q) c i j k = q_eps_t q c i j k.
Proof.
  intros q c i j k (Hi & Hj & Hk). unfold edge_eps, q_eps_t, yee_avg, avg_axis, ralong.
  destruct c; rewrite !prv_lt by assumption; fold (below (q_shape q AX) i) (below (q_shape q AY) j); field.
Qed.

Section Two.
Variables q1 q2 : mode_solver.
Hypothesis Hs : q_shape q1 = q_shape q2.
Hypothesis Hh : q_h q1 = q_h q2.
Notation s := (q_shape q2).
Lemma two_id : forall b1 b2 e1 h1 e2 h2, mx q1 b1 e1 h1 -> mx q2 b2 e2 h2 ->
  (RtoC (b1 - b2) * cross_power s e1 h2)%C = (RtoC (q_k0 q1) * vinner s h1 h2 - RtoC (q_k0 q2) * winner q2 e1 e2)%C.
Proof.
  intros b1 b2 e1 h1 e2 h2 [A1 _] [_ A2]. unfold q_dx in A1, A2. rewrite Hs, Hh in A1. pose proof (lorentz s (q_h q2) b1 b2 e1 h2) as L.
  assert (X : vinner s (curl_beta_fn (diff_fn s (uniform_dx (q_h q2)) false) b1 e1) h2 = (- (Ci * RtoC (q_k0 q1)) * vinner s h1 h2)%C).
  { unfold vinner.
    assert (G : forall c, inner s (curl_beta_fn (diff_fn s (uniform_dx (q_h q2)) false) b1 e1 c) (h2 c) = (- (Ci * RtoC (q_k0 q1)) * inner s (h1 c) (h2 c))%C).
    { intros c. rewrite <- inner_scal_l. apply inner_ext; auto. intros i j k H. rewrite A1 by auto. ring. }
    rewrite !G. ring. }
  assert (Y : vinner s e1 (curl_beta_fn (diff_fn s (uniform_dx (q_h q2)) true) b2 h2) = (- (Ci * RtoC (q_k0 q2)) * winner q2 e1 e2)%C).
  { unfold winner, vinner.
    assert (G : forall c, inner s (e1 c) (curl_beta_fn (diff_fn s (uniform_dx (q_h q2)) true) b2 h2 c) =
      (- (Ci * RtoC (q_k0 q2)) * inner s (fun i j k => RtoC (q_eps_t q2 c i j k) * e1 c i j k)%C (e2 c))%C).
    { intros c. rewrite <- inner_scal_l. unfold inner. apply grid_sum_ext; intros i j k H. rewrite A2 by auto.
      rewrite !Cconj_mul. replace (Cconj Ci) with (- Ci)%C by (apply C_eq; cbn; ring).
      replace (Cconj (RtoC (q_k0 q2))) with (RtoC (q_k0 q2)) by (apply C_eq; cbn; ring).
      replace (Cconj (RtoC (q_eps_t q2 c i j k))) with (RtoC (q_eps_t q2 c i j k)) by (apply C_eq; cbn; ring). ring. }
    rewrite !G. ring. }
  rewrite X, Y in L.
  apply (Cmul_cancel' (- Ci)%C); [intro E0; apply (f_equal im) in E0; cbn in E0; lra |].
  transitivity (- (Ci * RtoC (b1 - b2)) * cross_power s e1 h2)%C; [ring |]. rewrite <- L. ring.
Qed.
End Two.

Lemma winner_ext_shape : forall q e e', winner q e e' = vinner (q_shape q) (fun c i j k => RtoC (q_eps_t q c i j k) * e c i j k)%C e'.
Proof. reflexivity. Qed.
Lemma vinner_ext : forall s f g f' g', (forall c i j k, in_grid s i j k -> f c i j k = f' c i j k) ->
  (forall c i j k, in_grid s i j k -> g c i j k = g' c i j k) -> vinner s f g = vinner s f' g'.
Proof. intros. unfold vinner. rewrite (inner_ext s (f AX) (g AX) (f' AX) (g' AX)), (inner_ext s (f AY) (g AY) (f' AY) (g' AY)), (inner_ext s (f AZ) (g AZ) (f' AZ) (g' AZ)) by auto. reflexivity. Qed.
Lemma vinner_scal_l : forall s c f g, vinner s (fun a i j k => c * f a i j k)%C g = (c * vinner s f g)%C.
Proof. intros. unfold vinner. rewrite !inner_scal_l. ring. Qed.
Lemma vinner_sub_l : forall s f f' g, vinner s (fun a i j k => f a i j k - f' a i j k)%C g = (vinner s f g - vinner s f' g)%C.
Proof. intros. unfold vinner. rewrite !inner_sub_l. ring. Qed.

Lemma pert_mx : forall q1 q2 b1 b2 e1 h1 e2 h2, q_shape q1 = q_shape q2 -> q_h q1 = q_h q2 -> mx q1 b1 e1 h1 -> mx q2 b2 e2 h2 ->
  (RtoC (b1 - b2) * (cross_power (q_shape q2) e1 h2 + Cconj (cross_power (q_shape q2) e2 h1)))%C =
  (RtoC (q_k0 q1 - q_k0 q2) * vinner (q_shape q2) h1 h2 +
   vinner (q_shape q2) (fun c i j k => RtoC (q_k0 q1 * edge_eps (q_shape q2) (q_eps q1) c i j k - q_k0 q2 * edge_eps (q_shape q2) (q_eps q2) c i j k) * e1 c i j k)%C e2)%C.
Proof.
  intros q1 q2 b1 b2 e1 h1 e2 h2 Hs Hh M1 M2.
  pose proof (two_id q1 q2 Hs Hh _ _ _ _ _ _ M1 M2) as P.
  pose proof (two_id q2 q1 (eq_sym Hs) (eq_sym Hh) _ _ _ _ _ _ M2 M1) as Q.
  apply (f_equal Cconj) in Q. rewrite !Cconj_mul, Cconj_sub, !Cconj_mul, <- vinner_conj, <- winner_conj in Q.
  assert (Hc : forall x, Cconj (RtoC x) = RtoC x) by (intro; apply C_eq; cbn; ring). rewrite !Hc in Q.
  replace (RtoC (b2 - b1)) with (- RtoC (b1 - b2))%C in Q by (apply C_eq; cbn; ring).
  rewrite (winner_ext_shape q1), Hs in Q. rewrite winner_ext_shape in P.
  rewrite (vinner_ext (q_shape q2) (fun c i j k => RtoC (q_k0 q1 * edge_eps (q_shape q2) (q_eps q1) c i j k - q_k0 q2 * edge_eps (q_shape q2) (q_eps q2) c i j k) * e1 c i j k)%C e2
    (fun c i j k => RtoC (q_k0 q1) * (RtoC (q_eps_t q1 c i j k) * e1 c i j k) - RtoC (q_k0 q2) * (RtoC (q_eps_t q2 c i j k) * e1 c i j k))%C e2).
  2:{ intros c i j k H. rewrite (edge_eps_t q2) by exact H. rewrite <- Hs in H |- *. rewrite (edge_eps_t q1) by exact H. apply C_eq; cbn; ring. }
  2: auto.
  rewrite (vinner_sub_l _ (fun c i j k => RtoC (q_k0 q1) * (RtoC (q_eps_t q1 c i j k) * e1 c i j k))%C (fun c i j k => RtoC (q_k0 q2) * (RtoC (q_eps_t q2 c i j k) * e1 c i j k))%C).
  rewrite (vinner_scal_l _ (RtoC (q_k0 q1)) (fun c i j k => RtoC (q_eps_t q1 c i j k) * e1 c i j k)%C), (vinner_scal_l _ (RtoC (q_k0 q2)) (fun c i j k => RtoC (q_eps_t q2 c i j k) * e1 c i j k)%C).
  replace (RtoC (q_k0 q1 - q_k0 q2)) with (RtoC (q_k0 q1) - RtoC (q_k0 q2))%C by (apply C_eq; cbn; ring).
  set (X := vinner (q_shape q2) h1 h2) in *.
  set (Y := vinner (q_shape q2) (fun c i j k => RtoC (q_eps_t q1 c i j k) * e1 c i j k)%C e2) in *.
  set (Z := vinner (q_shape q2) (fun c i j k => RtoC (q_eps_t q2 c i j k) * e1 c i j k)%C e2) in *.
  replace (RtoC (b1 - b2) * (cross_power (q_shape q2) e1 h2 + Cconj (cross_power (q_shape q2) e2 h1)))%C with
    (RtoC (b1 - b2) * cross_power (q_shape q2) e1 h2 - (- RtoC (b1 - b2) * Cconj (cross_power (q_shape q2) e2 h1)))%C by ring.
  rewrite P, Q. ring.
Qed.

Lemma lib_mx : forall q m, q_k0 q <> 0 -> pos_eps q -> is_mode2 q m -> mx q (m_beta m) (lib_e q m) (lib_h q m).
Proof.
  intros q m Hk Hp [Hb He]. apply mx_of. apply modes_maxwell; auto. lra.
Qed.
Lemma pert_exact : forall q1 q2 m1 m2, q_shape q1 = q_shape q2 -> q_h q1 = q_h q2 -> q_k0 q1 <> 0 -> q_k0 q2 <> 0 -> pos_eps q1 -> pos_eps q2 ->
  is_mode2 q1 m1 -> is_mode2 q2 m2 -> let s := q_shape q2 in
  (RtoC (m_beta m1 - m_beta m2) * (cross_power s (lib_e q1 m1) (lib_h q2 m2) + Cconj (cross_power s (lib_e q2 m2) (lib_h q1 m1))))%C =
  (RtoC (q_k0 q1 - q_k0 q2) * vinner s (lib_h q1 m1) (lib_h q2 m2) +
   vinner s (fun c i j k => RtoC (q_k0 q1 * edge_eps s (q_eps q1) c i j k - q_k0 q2 * edge_eps s (q_eps q2) c i j k) * lib_e q1 m1 c i j k)%C (lib_e q2 m2))%C.
Proof. intros q1 q2 m1 m2 Hs Hh K1 K2 P1 P2 M1 M2 s. apply pert_mx; auto; apply lib_mx; auto. Qed.

(** ** Continuity and derivatives. *)
Lemma cont_const : forall a t0, continuity_pt (fun _ => a) t0.
Proof. intros. apply continuity_pt_const. intros x y. reflexivity. Qed.
Lemma cc_const : forall z t0, ccont (fun _ => z) t0.
Proof. intros. split; apply cont_const. Qed.
Lemma cc_add : forall f g t0, ccont f t0 -> ccont g t0 -> ccont (fun t => f t + g t)%C t0.
Proof. intros f g t0 [A B] [A' B']. split; cbn [re im Cadd]; apply (continuity_pt_plus _ _ _); assumption. Qed.
Lemma cc_mul : forall f g t0, ccont f t0 -> ccont g t0 -> ccont (fun t => f t * g t)%C t0.
Proof.
  intros f g t0 [A B] [A' B']. split; cbn [re im Cmul];
  [apply (continuity_pt_minus (fun t => re (f t) * re (g t)) (fun t => im (f t) * im (g t))) | apply (continuity_pt_plus (fun t => re (f t) * im (g t)) (fun t => im (f t) * re (g t)))];
  apply (continuity_pt_mult _ _ _); assumption.
Qed.
Lemma cc_opp : forall f t0, ccont f t0 -> ccont (fun t => - f t)%C t0.
Proof. intros f t0 [A B]. split; cbn [re im Copp]; [apply (continuity_pt_opp (fun t => re (f t))) | apply (continuity_pt_opp (fun t => im (f t)))]; assumption. Qed.
Lemma cc_sub : forall f g t0, ccont f t0 -> ccont g t0 -> ccont (fun t => f t - g t)%C t0.
Proof. intros. change (ccont (fun t => f t + - g t)%C t0). apply cc_add; [assumption | apply cc_opp; assumption]. Qed.
Lemma cc_conj : forall f t0, ccont f t0 -> ccont (fun t => Cconj (f t)) t0.
Proof. intros f t0 [A B]. split; cbn [re im Cconj]; [assumption | apply (continuity_pt_opp (fun t => im (f t))); assumption]. Qed.
Lemma cc_real : forall (f : R -> R) t0, continuity_pt f t0 -> ccont (fun t => RtoC (f t)) t0.
Proof. intros. split; cbn [re im RtoC]; [assumption | apply cont_const]. Qed.
Lemma cc_sum : forall n (f : R -> nat -> C) t0, (forall i, (i < n)%nat -> ccont (fun t => f t i) t0) -> ccont (fun t => Csum n (f t)) t0.
Proof.
  induction n as [| n IH]; intros f t0 H; cbn [Csum]; [apply cc_const |].
  apply cc_add; [apply IH; intros; apply H; lia | apply H; lia].
Qed.
Lemma cc_grid : forall s (f : R -> fld) t0, (forall i j k, in_grid s i j k -> ccont (fun t => f t i j k) t0) -> ccont (fun t => grid_sum s (f t)) t0.
Proof.
  intros s f t0 H. unfold grid_sum. apply cc_sum; intros i Hi. apply cc_sum; intros j Hj. apply cc_sum; intros k Hk. apply H. repeat split; assumption.
Qed.
Lemma cc_cross : forall s F G t0, field_cont s F t0 -> field_cont s G t0 -> ccont (fun t => cross_power s (F t) (G t)) t0.
Proof.
  intros s F G t0 HF HG. unfold cross_power, power_along. apply cc_grid. intros i j k H.
  apply cc_sub; apply cc_mul; try apply cc_conj; auto.
Qed.
Lemma fc_const : forall s f t0, field_cont s (fun _ => f) t0.
Proof. intros s f t0 c i j k _. apply cc_const. Qed.

(** a(t0) = 0, a differentiable, g continuous: a g is differentiable. *)
Lemma deriv_zero_mul : forall a g t0 d, a t0 = 0 -> derivable_pt_lim a t0 d -> continuity_pt g t0 -> derivable_pt_lim (fun t => a t * g t) t0 (d * g t0).
Proof.
  intros a g t0 d Ha Hd Hg eps He.
  set (D := 1 + Rabs d + Rabs (g t0)). assert (0 < D) by (unfold D; pose proof (Rabs_pos d); pose proof (Rabs_pos (g t0)); lra).
  set (e := Rmin 1 (eps / (2 * D))). assert (0 < e).
  { unfold e. apply Rmin_glb_lt; [lra |]. apply Rdiv_lt_0_compat; lra. }
  destruct (Hd e H0) as [d1 H1]. destruct (Hg e H0) as (d2 & Hd2 & H2).
  assert (Hm : 0 < Rmin d1 d2) by (apply Rmin_glb_lt; [apply cond_pos | exact Hd2]).
  exists (mkposreal _ Hm). intros h Hh Hlt. cbn in Hlt.
  specialize (H1 h Hh (Rlt_le_trans _ _ _ Hlt (Rmin_l _ _))).
  assert (G : Rabs (g (t0 + h) - g t0) < e).
  { apply (H2 (t0 + h)). split; [split; [exact I | lra] |]. unfold dist; cbn. unfold R_dist. replace (t0 + h - t0) with h by ring.
    eapply Rlt_le_trans; [exact Hlt | apply Rmin_r]. }
  rewrite Ha in *. rewrite Rmult_0_l, Rminus_0_r in *.
  set (x := a (t0 + h) / h) in *. replace (a (t0 + h) * g (t0 + h) / h) with (x * g (t0 + h)) by (unfold x; field; auto).
  replace (x * g (t0 + h) - d * g t0) with ((x - d) * (g (t0 + h) - g t0) + d * (g (t0 + h) - g t0) + (x - d) * g t0) by ring.
  set (u := x - d) in *. set (v := g (t0 + h) - g t0) in *.
  assert (e1 : e <= 1) by apply Rmin_l. assert (e2 : e * (2 * D) <= eps).
  { assert (e <= eps / (2 * D)) by apply Rmin_r. apply (Rmult_le_compat_r (2 * D)) in H3; [| lra]. replace (eps / (2 * D) * (2 * D)) with eps in H3 by (field; lra). exact H3. }
  assert (T : Rabs (u * v + d * v + u * g t0) <= Rabs u * Rabs v + Rabs d * Rabs v + Rabs u * Rabs (g t0)).
  { eapply Rle_trans; [apply Rabs_triang |]. rewrite <- !Rabs_mult. apply Rplus_le_compat_r. apply Rabs_triang. }
  pose proof (Rabs_pos u). pose proof (Rabs_pos v). pose proof (Rabs_pos d). pose proof (Rabs_pos (g t0)).
  assert (Rabs u * Rabs v <= e * 1) by (apply Rmult_le_compat; lra).
  assert (Rabs d * Rabs v <= Rabs d * e) by (apply Rmult_le_compat_l; lra).
  assert (Rabs u * Rabs (g t0) <= e * Rabs (g t0)) by (apply Rmult_le_compat_r; lra).
  assert (e * D = e * 1 + Rabs d * e + e * Rabs (g t0)) by (unfold D; ring). 
  assert (0 < e * D) by (apply Rmult_lt_0_compat; lra). lra.
Qed.
(** Derivatives depend only on the values near the point. *)
Lemma deriv_local : forall f g t0 d r, 0 < r -> (forall t, Rabs (t - t0) < r -> f t = g t) -> derivable_pt_lim g t0 d -> derivable_pt_lim f t0 d.
Proof.
  intros f g t0 d r Hr H Hd eps He. destruct (Hd eps He) as [d1 H1].
  assert (Hm : 0 < Rmin d1 r) by (apply Rmin_glb_lt; [apply cond_pos | exact Hr]).
  exists (mkposreal _ Hm). intros h Hh Hlt. cbn in Hlt.
  rewrite !H.
  - apply H1; auto. eapply Rlt_le_trans; [exact Hlt | apply Rmin_l].
  - replace (t0 - t0) with 0 by ring. rewrite Rabs_R0. exact Hr.
  - replace (t0 + h - t0) with h by ring. eapply Rlt_le_trans; [exact Hlt | apply Rmin_r].
Qed.
Lemma cont_local : forall f t0 e, 0 < e -> continuity_pt f t0 -> exists r, 0 < r /\ forall t, Rabs (t - t0) < r -> Rabs (f t - f t0) < e.
Proof.
  intros f t0 e He H. destruct (H e He) as (r & Hr & G). exists r. split; [exact Hr |]. intros t Ht.
  destruct (Req_dec t0 t) as [<- | N]; [replace (f t0 - f t0) with 0 by ring; rewrite Rabs_R0; exact He |].
  apply (G t). split; [split; [exact I | exact N] |]. exact Ht.
Qed.
(** (b - b0) D = N, D continuous and not 0, N(t0) = 0 and N differentiable: b is differentiable. *)
Lemma deriv_quotient : forall b D N t0 n r, 0 < r -> (forall t, Rabs (t - t0) < r -> (b t - b t0) * D t = N t) ->
  continuity_pt D t0 -> D t0 <> 0 -> derivable_pt_lim N t0 n -> derivable_pt_lim b t0 (n / D t0).
Proof.
  intros b D N t0 n r Hr H Hc Hn HN.
  destruct (cont_local D t0 (Rabs (D t0)) (Rabs_pos_lt _ Hn) Hc) as (r2 & Hr2 & G).
  assert (Hm : 0 < Rmin r r2) by (apply Rmin_glb_lt; auto).
  assert (N0 : N t0 = 0) by (rewrite <- H; [ring | replace (t0 - t0) with 0 by ring; rewrite Rabs_R0; exact Hr]).
  apply (deriv_local b (fun t => b t0 + N t * / D t) t0 _ _ Hm).
  - intros t Ht. assert (D t <> 0).
    { intro E. specialize (G t (Rlt_le_trans _ _ _ Ht (Rmin_r _ _))). rewrite E in G. replace (0 - D t0) with (- D t0) in G by ring. rewrite Rabs_Ropp in G. lra. }
    rewrite <- H by (eapply Rlt_le_trans; [exact Ht | apply Rmin_l]). field. exact H0.
  - replace (n / D t0) with (0 + n * / D t0) by (unfold Rdiv; ring).
    apply (derivable_pt_lim_plus (fun _ => b t0) (fun t => N t * / D t)); [apply derivable_pt_lim_const |].
    apply (deriv_zero_mul N (fun t => / D t)); auto. apply (continuity_pt_inv D); auto.
Qed.
Lemma deriv_csum : forall n (f : R -> nat -> C) (d : nat -> R) t0, (forall i, (i < n)%nat -> derivable_pt_lim (fun t => re (f t i)) t0 (d i)) ->
  derivable_pt_lim (fun t => re (Csum n (f t))) t0 (Rsum n d).
Proof.
  induction n as [| n IH]; intros f d t0 H; cbn [Csum Rsum re C0]; [apply derivable_pt_lim_const |].
  cbn [re Cadd]. apply (derivable_pt_lim_plus (fun t => re (Csum n (f t))) (fun t => re (f t n))); [apply IH; intros; apply H; lia | apply H; lia].
Qed.
Lemma re_csum : forall n f, re (Csum n f) = Rsum n (fun i => re (f i)).
Proof. induction n; intros; cbn; [reflexivity | rewrite IHn; reflexivity]. Qed.
Lemma deriv_grid : forall s (f : R -> fld) (d : fld) t0, (forall i j k, in_grid s i j k -> derivable_pt_lim (fun t => re (f t i j k)) t0 (re (d i j k))) ->
  derivable_pt_lim (fun t => re (grid_sum s (f t))) t0 (re (grid_sum s d)).
Proof.
  intros s f d t0 H. unfold grid_sum. rewrite re_csum.
  apply (deriv_csum (s AX) (fun t i => Csum (s AY) (fun j => Csum (s AZ) (fun k => f t i j k)))). intros i Hi. rewrite re_csum.
  apply (deriv_csum (s AY) (fun t j => Csum (s AZ) (fun k => f t i j k))). intros j Hj. rewrite re_csum.
  apply (deriv_csum (s AZ) (fun t k => f t i j k)). intros k Hk. apply H. repeat split; assumption.
Qed.
(** sum (w(t) - w(t0)) F(t) conj(g) *)
Lemma deriv_inner : forall s (w : R -> rfld) (dw : rfld) (F : R -> fld) g t0, (forall i j k, in_grid s i j k -> derivable_pt_lim (fun t => w t i j k) t0 (dw i j k)) ->
  (forall i j k, in_grid s i j k -> ccont (fun t => F t i j k) t0) ->
  derivable_pt_lim (fun t => re (inner s (fun i j k => RtoC (w t i j k - w t0 i j k) * F t i j k)%C g)) t0
    (re (inner s (fun i j k => RtoC (dw i j k) * F t0 i j k)%C g)).
Proof.
  intros s w dw F g t0 Hw HF. unfold inner. apply (deriv_grid s (fun t i j k => RtoC (w t i j k - w t0 i j k) * F t i j k * Cconj (g i j k))%C).
  intros i j k H. 
  assert (E : forall x, re (RtoC x * F t0 i j k * Cconj (g i j k))%C = x * re (F t0 i j k * Cconj (g i j k))%C) by (intro; cbn; ring).
  rewrite E.
  apply (deriv_local _ (fun t => (w t i j k - w t0 i j k) * re (F t i j k * Cconj (g i j k))%C) t0 _ 1 Rlt_0_1); [intros; cbn; ring |].
  apply (deriv_zero_mul (fun t => w t i j k - w t0 i j k) (fun t => re (F t i j k * Cconj (g i j k))%C)); [ring | |].
  - replace (dw i j k) with (dw i j k - 0) by ring. apply (derivable_pt_lim_minus (fun t => w t i j k)); [apply Hw; exact H | apply derivable_pt_lim_const].
  - apply (cc_mul (fun t => F t i j k) (fun _ => Cconj (g i j k))); [apply HF; exact H | apply cc_const].
Qed.
Lemma deriv_vinner : forall s (w : R -> axis -> rfld) (dw : axis -> rfld) (F : R -> vfld) g t0,
  (forall c i j k, in_grid s i j k -> derivable_pt_lim (fun t => w t c i j k) t0 (dw c i j k)) -> field_cont s F t0 ->
  derivable_pt_lim (fun t => re (vinner s (fun c i j k => RtoC (w t c i j k - w t0 c i j k) * F t c i j k)%C g)) t0
    (re (vinner s (fun c i j k => RtoC (dw c i j k) * F t0 c i j k)%C g)).
Proof.
  intros s w dw F g t0 Hw HF. unfold vinner. cbn [re Cadd].
  assert (G : forall c, derivable_pt_lim (fun t => re (inner s (fun i j k => RtoC (w t c i j k - w t0 c i j k) * F t c i j k)%C (g c))) t0
    (re (inner s (fun i j k => RtoC (dw c i j k) * F t0 c i j k)%C (g c)))).
  { intro c. apply (deriv_inner s (fun t => w t c) (dw c) (fun t => F t c)); intros; auto. }
  apply (derivable_pt_lim_plus (fun t => re (inner s (fun i j k => RtoC (w t AX i j k - w t0 AX i j k) * F t AX i j k)%C (g AX)) + re (inner s (fun i j k => RtoC (w t AY i j k - w t0 AY i j k) * F t AY i j k)%C (g AY)))
    (fun t => re (inner s (fun i j k => RtoC (w t AZ i j k - w t0 AZ i j k) * F t AZ i j k)%C (g AZ)))); [| apply G].
  apply (derivable_pt_lim_plus (fun t => re (inner s (fun i j k => RtoC (w t AX i j k - w t0 AX i j k) * F t AX i j k)%C (g AX))) (fun t => re (inner s (fun i j k => RtoC (w t AY i j k - w t0 AY i j k) * F t AY i j k)%C (g AY)))); apply G.
Qed.

(** d beta / dt = (k' sum |h|^2 + sum (k eps)' |e|^2) / (2 Re power). *)
Lemma pert_deriv : forall q m t0 r dk (dw : axis -> rfld), mode_family q m t0 r -> let s := q_shape (q t0) in
  field_cont s (fun t => lib_e (q t) (m t)) t0 -> field_cont s (fun t => lib_h (q t) (m t)) t0 ->
  derivable_pt_lim (fun t => q_k0 (q t)) t0 dk ->
  (forall c i j k, in_grid s i j k -> derivable_pt_lim (fun t => q_k0 (q t) * edge_eps s (q_eps (q t)) c i j k) t0 (dw c i j k)) ->
  power2 (q t0) (m t0) <> 0 ->
  derivable_pt_lim (fun t => m_beta (m t)) t0
    ((dk * weighted_sq s (fun _ _ _ _ => 1) (lib_h (q t0) (m t0)) + weighted_sq s dw (lib_e (q t0) (m t0))) / power2 (q t0) (m t0)).
Proof.
  intros q m t0 r dk dw [Hr Hf] s He Hh Hk Hw Hp.
  assert (E0 : Rabs (t0 - t0) < r) by (replace (t0 - t0) with 0 by ring; rewrite Rabs_R0; exact Hr).
  destruct (Hf t0 E0) as (_ & _ & K0 & P0 & M0).
  set (D := fun t => re (cross_power s (lib_e (q t) (m t)) (lib_h (q t0) (m t0)) + Cconj (cross_power s (lib_e (q t0) (m t0)) (lib_h (q t) (m t))))%C).
  assert (ED : power2 (q t0) (m t0) = D t0) by (unfold D, power2; cbn [re Cadd Cconj]; fold s; ring).
  rewrite ED in *.
  set (W := fun t c i j k => q_k0 (q t) * edge_eps s (q_eps (q t)) c i j k).
  set (N := fun t => re (vinner s (fun c i j k => RtoC (q_k0 (q t) - q_k0 (q t0)) * lib_h (q t) (m t) c i j k)%C (lib_h (q t0) (m t0))) +
    re (vinner s (fun c i j k => RtoC (W t c i j k - W t0 c i j k) * lib_e (q t) (m t) c i j k)%C (lib_e (q t0) (m t0)))).
  apply (deriv_quotient (fun t => m_beta (m t)) D N t0 _ r Hr).
  - intros t Ht. destruct (Hf t Ht) as (Hs & Hsp & K & P & M).
    pose proof (pert_exact (q t) (q t0) (m t) (m t0) Hs Hsp K K0 P P0 M M0) as X. cbv zeta in X. fold s in X.
    apply (f_equal re) in X. unfold D, N.
    assert (RR : forall x z, re (RtoC x * z)%C = x * re z) by (intros; cbn; ring). rewrite RR in X. rewrite X. cbn [re Cadd].
    f_equal. rewrite <- vinner_scal_l. reflexivity.
  - apply cc_add; [apply cc_cross; [exact He | apply fc_const] | apply cc_conj, cc_cross; [apply fc_const | exact Hh]].
  - exact Hp.
  - unfold N. 
    assert (EQ : dk * weighted_sq s (fun _ _ _ _ => 1) (lib_h (q t0) (m t0)) = re (vinner s (fun c i j k => RtoC dk * lib_h (q t0) (m t0) c i j k)%C (lib_h (q t0) (m t0)))).
    { unfold weighted_sq. rewrite (vinner_scal_l s (RtoC dk) (lib_h (q t0) (m t0))), (vinner_scal_l s (RtoC 1) (lib_h (q t0) (m t0))). cbn [re im Cmul RtoC]. ring. }
    rewrite EQ. unfold weighted_sq.
    apply (derivable_pt_lim_plus (fun t => re (vinner s (fun c i j k => RtoC (q_k0 (q t) - q_k0 (q t0)) * lib_h (q t) (m t) c i j k)%C (lib_h (q t0) (m t0))))
      (fun t => re (vinner s (fun c i j k => RtoC (W t c i j k - W t0 c i j k) * lib_e (q t) (m t) c i j k)%C (lib_e (q t0) (m t0))))).
    + apply (deriv_vinner s (fun t _ _ _ _ => q_k0 (q t)) (fun _ _ _ _ => dk) (fun t => lib_h (q t) (m t))); [intros; exact Hk | exact Hh].
    + apply (deriv_vinner s W dw (fun t => lib_e (q t) (m t))); [exact Hw | exact He].
Qed.
