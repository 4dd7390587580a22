(** Two-dimensional modes: the propagation constant is at most k0 times the largest index; power of a superposition. *)
From Coq Require Import Reals List Arith ZArith Lra Lia Bool.
From Verif Require Import Cx Arr Model_coupling Model_yee Spec_yee Proof_yee Proof_yee2 Proof_yee3 Model_fdfd Spec_fdfd Proof_fdfd Proof_fdfd2 Model_grid Model_mode Spec_mode Proof_mode Proof_mode2 Spec_orth Proof_orth Proof_orth2.
Import ListNotations.
Local Open Scope R_scope.

Section Bound.
Variable q : mode_solver.
Notation s := (q_shape q).
Notation F a f := (diff_fn (q_shape q) (q_dx q) false f a).
Notation B a f := (diff_fn (q_shape q) (q_dx q) true f a).
Notation E c := (q_eps_t q c).
Notation cB b h := (curl_beta_fn (diff_fn (q_shape q) (q_dx q) true) b h).
Notation cF b h := (curl_beta_fn (diff_fn (q_shape q) (q_dx q) false) b h).
Definition dv (b : R) (h : vfld) : Prop := forall i j k, in_grid s i j k -> (F AX (h AX) i j k + F AY (h AY) i j k)%C = (Ci * RtoC b * h AZ i j k)%C.
Lemma dv_of : forall b h, div_free s (fwd s (q_dx q)) (- (Ci * RtoC b))%C h -> dv b h.
Proof.
  intros b h H i j k Hin. pose proof (H i j k Hin) as P. unfold divergence, with_kz in P. rewrite <- !diff_fwd in P by auto.
  transitivity ((F AX (h AX) i j k + F AY (h AY) i j k + - (Ci * RtoC b) * h AZ i j k) + Ci * RtoC b * h AZ i j k)%C; [ring |]. rewrite P. ring.
Qed.
Lemma dv_B : forall b h a i j k, dv b h -> in_grid s i j k ->
  (B a (F AX (h AX)) i j k + B a (F AY (h AY)) i j k)%C = (Ci * RtoC b * B a (h AZ) i j k)%C.
Proof.
  intros b h a i j k H Hin. rewrite <- (diff_scal s (q_dx q) true (Ci * RtoC b)%C (h AZ)).
  rewrite <- (diff_add s (q_dx q) true (F AX (h AX)) (F AY (h AY)) a i j k). apply diff_ext; auto.
Qed.
Lemma curlcurl : forall b h, dv b h -> forall c i j k, in_grid s i j k -> cF b (cB b h) c i j k =
  (RtoC (b * b) * h c i j k - (match c with
    | AX => B AX (F AX (h AX)) i j k + F AY (B AY (h AX)) i j k
    | AY => B AY (F AY (h AY)) i j k + F AX (B AX (h AY)) i j k
    | AZ => F AX (B AX (h AZ)) i j k + F AY (B AY (h AZ)) i j k end))%C.
Proof.
  intros b h H c i j k Hin. unfold curl_beta_fn.
  assert (I2 : (Ci * Ci)%C = (- C1)%C) by apply Ci_sq.
  pose proof (dv_B b h AX i j k H Hin) as DX. pose proof (dv_B b h AY i j k H Hin) as DY. pose proof (H i j k Hin) as D0.
  rewrite RtoC_mul.
  destruct c.
  - rewrite (diff_sub s (q_dx q) false (B AX (h AY)) (B AY (h AX)) AY i j k).
    rewrite (diff_commute s (q_dx q) false true (h AY) AY AX i j k) by discriminate.
    replace (B AX (F AY (h AY)) i j k) with (Ci * RtoC b * B AX (h AZ) i j k - B AX (F AX (h AX)) i j k)%C by (rewrite <- DX; ring).
    replace (RtoC b * RtoC b)%C with (- ((Ci * Ci) * (RtoC b * RtoC b)))%C by (rewrite I2; ring). ring.
  - rewrite (diff_sub s (q_dx q) false (B AX (h AY)) (B AY (h AX)) AX i j k).
    rewrite (diff_commute s (q_dx q) false true (h AX) AX AY i j k) by discriminate.
    replace (B AY (F AX (h AX)) i j k) with (Ci * RtoC b * B AY (h AZ) i j k - B AY (F AY (h AY)) i j k)%C by (rewrite <- DY; ring).
    replace (RtoC b * RtoC b)%C with (- ((Ci * Ci) * (RtoC b * RtoC b)))%C by (rewrite I2; ring). ring.
  - rewrite (diff_sub s (q_dx q) false (fun i j k => - (Ci * RtoC b) * h AX i j k)%C (B AX (h AZ)) AX i j k).
    rewrite (diff_add s (q_dx q) false (B AY (h AZ)) (fun i j k => Ci * RtoC b * h AY i j k)%C AY i j k).
    rewrite (diff_scal s (q_dx q) false (- (Ci * RtoC b))%C (h AX)), (diff_scal s (q_dx q) false (Ci * RtoC b)%C (h AY)).
    transitivity (- (Ci * RtoC b) * (F AX (h AX) i j k + F AY (h AY) i j k) - F AX (B AX (h AZ)) i j k - F AY (B AY (h AZ)) i j k)%C; [ring |].
    rewrite D0. replace (RtoC b * RtoC b)%C with (- ((Ci * Ci) * (RtoC b * RtoC b)))%C by (rewrite I2; ring). ring.
Qed.
Lemma curl_norm : forall b h, dv b h -> b * b * re (vinner s h h) <= re (vinner s (cB b h) (cB b h)).
Proof.
  intros b h H. pose proof (lorentz s (q_h q) b b (cB b h) h) as L.
  replace (RtoC (b - b)) with C0 in L by (apply C_eq; cbn; ring).
  assert (L' : vinner s (cF b (cB b h)) h = vinner s (cB b h) (cB b h)).
  { unfold q_dx in *. transitivity (vinner s (cB b h) (cB b h) + (vinner s (cF b (cB b h)) h - vinner s (cB b h) (cB b h)))%C; unfold q_dx; [ring |]. rewrite L. ring. }
  rewrite <- L'. unfold vinner at 2.
  assert (G : forall c f a g a', (forall i j k, in_grid s i j k -> cF b (cB b h) c i j k = (RtoC (b * b) * h c i j k - (f i j k + g i j k))%C) ->
    inner s f (h c) = (- inner s (a : fld) a)%C -> inner s g (h c) = (- inner s (a' : fld) a')%C ->
    b * b * re (inner s (h c) (h c)) <= re (inner s (cF b (cB b h) c) (h c))).
  { intros c f a g a' Hc Hf Hg.
    rewrite (inner_ext s (cF b (cB b h) c) (h c) (fun i j k => RtoC (b * b) * h c i j k - (f i j k + g i j k))%C (h c)) by auto.
    rewrite (inner_sub_l s (fun i j k => RtoC (b * b) * h c i j k)%C (fun i j k => f i j k + g i j k)%C), (inner_add_l s f g), (inner_scal_l s (RtoC (b * b)) (h c)), Hf, Hg.
    pose proof (inner_re_nonneg s a). pose proof (inner_re_nonneg s a'). cbn. lra. }
  assert (QX := G AX _ (F AX (h AX)) _ (B AY (h AX)) (curlcurl b h H AX) (diff_adjoint_b _ _ _ _ _) (diff_adjoint _ _ _ _ _)).
  assert (QY := G AY _ (F AY (h AY)) _ (B AX (h AY)) (curlcurl b h H AY) (diff_adjoint_b _ _ _ _ _) (diff_adjoint _ _ _ _ _)).
  assert (QZ := G AZ _ (B AX (h AZ)) _ (B AY (h AZ)) (curlcurl b h H AZ) (diff_adjoint _ _ _ _ _) (diff_adjoint _ _ _ _ _)).
  unfold vinner. cbn. lra.
Qed.
Lemma eps_t_below : forall M, eps_below q M -> forall c i j k, in_grid s i j k -> E c i j k <= M.
Proof.
  intros M HM c i j k H. unfold q_eps_t. 
  assert (Q : forall a p, (forall i j k, in_grid s i j k -> p i j k <= M) -> forall i j k, in_grid s i j k -> avg_axis s a p i j k <= M).
  { intros a p Hp x y z (Hx & Hy & Hz). unfold avg_axis, ralong.
    assert (p x y z <= M) by (apply Hp; repeat split; auto).
    destruct a; [assert (p (prv (s AX) x) y z <= M) | assert (p x (prv (s AY) y) z <= M) | assert (p x y (prv (s AZ) z) <= M)];
      try (apply Hp; repeat split; auto using prv_bound); lra. }
  destruct c; cbn [yee_avg]; repeat (apply Q; auto).
Qed.
Lemma bound_mx : forall M b e h, q_k0 q <> 0 -> (forall c i j k, in_grid s i j k -> 0 < E c i j k <= M) -> mx q b e h -> dv b h ->
  0 < re (vinner s h h) -> b * b <= q_k0 q * q_k0 q * M.
Proof.
  intros M b e h Hk HE Hm Hd Hp.
  pose proof (curl_norm b h Hd) as L. pose proof (pair_id q b b e h e h Hm Hm) as P. destruct Hm as [_ A2].
  replace (RtoC (b - b)) with C0 in P by (apply C_eq; cbn; ring).
  assert (W : vinner s h h = winner q e e).
  { apply (Cmul_cancel' (RtoC (q_k0 q))); [apply RtoC_neq0; auto |].
    transitivity (RtoC (q_k0 q) * (vinner s h h - winner q e e) + RtoC (q_k0 q) * winner q e e)%C; [ring |]. rewrite <- P. ring. }
  assert (U : re (vinner s (cB b h) (cB b h)) <= q_k0 q * q_k0 q * M * re (winner q e e)).
  { assert (G : forall c, re (inner s (cB b h c) (cB b h c)) <= q_k0 q * q_k0 q * M * re (inner s (fun i j k => RtoC (E c i j k) * e c i j k)%C (e c))).
    { intros c. replace (q_k0 q * q_k0 q * M * re (inner s (fun i j k => RtoC (E c i j k) * e c i j k)%C (e c))) with
        (re (RtoC (q_k0 q * q_k0 q * M) * inner s (fun i j k => RtoC (E c i j k) * e c i j k)%C (e c))%C) by (cbn; ring).
      rewrite <- inner_scal_l. apply grid_re_le. intros i j k H. rewrite A2 by auto. pose proof (HE c i j k H) as [E0 E1]. cbn.
      set (x := re (e c i j k)). set (y := im (e c i j k)). set (p := E c i j k) in *. set (w := q_k0 q).
      assert (0 <= w * w * (x * x + y * y) * p * (M - p)). { apply Rmult_le_pos; [| lra]. apply Rmult_le_pos; [| lra]. nra. }
      nra. }
    unfold winner, vinner. pose proof (G AX). pose proof (G AY). pose proof (G AZ). cbn in *. lra. }
  rewrite <- W in U. apply Rmult_le_reg_r with (re (vinner s h h)); [exact Hp |]. lra.
Qed.
Lemma modes2_bound : forall M b U V, q_k0 q <> 0 -> b <> 0 -> pos_eps q -> eps_below q M -> eigen2 q (RtoC (b * b)) U V ->
  nonzero (q_n q) U \/ nonzero (q_n q) V -> b * b <= q_k0 q * q_k0 q * M.
Proof.
  intros M b U V Hk Hb Hp HM He Hn. destruct (modes_maxwell q b U V Hk Hb Hp He) as [M1 D].
  apply mx_of in M1. apply dv_of in D.
  apply (bound_mx M b _ _ Hk) with (3 := D) (2 := M1).
  - intros c i j k H. split; [apply eps_t_pos; auto | apply eps_t_below; auto].
  - set (h := mode_h q b U V). unfold vinner. cbn.
    pose proof (inner_re_nonneg s (h AX)). pose proof (inner_re_nonneg s (h AY)). pose proof (inner_re_nonneg s (h AZ)).
    assert (Z : forall z x, z <> C0 -> (z * cis x)%C <> C0).
    { intros z x Hz E0. apply Hz. apply Cn2_zero_iff. apply Cn2_zero_iff in E0. rewrite Cn2_mul, Cn2_cis in E0. lra. }
    destruct Hn as [(r & Hr & Hv) | (r & Hr & Hv)]; unfold q_n in Hr; destruct (ridx_inv s r Hr) as (i & j & k & Hin & ->).
    + assert (0 < re (inner s (h AX) (h AX))); [| lra]. apply (inner_re_pos s (h AX) i j k Hin). unfold h, mode_h. apply Z. exact Hv.
    + assert (0 < re (inner s (h AY) (h AY))); [| lra]. apply (inner_re_pos s (h AY) i j k Hin). unfold h, mode_h. apply Z. exact Hv.
Qed.
End Bound.

Lemma grid_sum_0 : forall s F, (forall i j k, in_grid s i j k -> F i j k = C0) -> grid_sum s F = C0.
Proof. intros s F H. rewrite (grid_sum_ext s F (fun i j k => C0 * C0)%C) by (intros; rewrite H by auto; ring). rewrite grid_sum_scal. ring. Qed.
Lemma cross0_l : forall s h, cross_power s (fun _ _ _ _ => C0) h = C0.
Proof. intros. apply grid_sum_0. intros. cbn. ring. Qed.
Lemma cross0_r : forall s e, cross_power s e (fun _ _ _ _ => C0) = C0.
Proof. intros. apply grid_sum_0. intros. apply C_eq; cbn; ring. Qed.
Section Evolve.
Variable q : mode_solver.
Notation s := (q_shape q).
Hypothesis Hk : q_k0 q <> 0.
Hypothesis Hp : pos_eps q.
Definition ev (f : mode2 -> vfld) (ms : list mode2) (ws : list R) (len : R) : vfld :=
  evolve (map (fun m => (f m, m_beta m)) ms) ws len.
Lemma cross_add : forall e e' h h', cross_power s (fun c i j k => e c i j k + e' c i j k)%C (fun c i j k => h c i j k + h' c i j k)%C =
  (cross_power s e h + cross_power s e h' + cross_power s e' h + cross_power s e' h')%C.
Proof.
  intros. rewrite !cross_inner.
  rewrite (inner_add_l s (e AX) (e' AX)), (inner_add_l s (e AY) (e' AY)).
  rewrite !(inner_add_r s _ (h AY) (h' AY)), !(inner_add_r s _ (h AX) (h' AX)). ring.
Qed.
Lemma cross_scal : forall a b e h, cross_power s (fun c i j k => e c i j k * a)%C (fun c i j k => h c i j k * b)%C = (a * Cconj b * cross_power s e h)%C.
Proof.
  intros. rewrite !cross_inner. unfold inner. rewrite <- !grid_sum_sub, <- grid_sum_scal. apply grid_sum_ext; intros. rewrite !Cconj_mul. ring.
Qed.
Lemma cross_zero_r : forall e ms ws len, (forall m, In m ms -> cross_power s e (lib_h q m) = C0) -> cross_power s e (ev (lib_h q) ms ws len) = C0.
Proof.
  intros e ms. unfold ev. induction ms as [| m ms IH]; intros ws len H; cbn [map evolve].
  - apply cross0_r.
  - destruct ws as [| w ws].
    + apply cross0_r.
    + set (R0 := evolve (map (fun m => (lib_h q m, m_beta m)) ms) ws len).
      rewrite (cross_ext s e _ (fun c i j k => e c i j k + C0)%C (fun c i j k => (fun c i j k => lib_h q m c i j k * (cis (m_beta m * len) * RtoC w))%C c i j k + R0 c i j k)%C);
        [| intros; ring | intros; ring].
      rewrite (cross_add e (fun _ _ _ _ => C0) (fun c i j k => lib_h q m c i j k * (cis (m_beta m * len) * RtoC w))%C R0).
      rewrite (cross_ext s e (fun c i j k => lib_h q m c i j k * (cis (m_beta m * len) * RtoC w))%C (fun c i j k => e c i j k * C1)%C (fun c i j k => lib_h q m c i j k * (cis (m_beta m * len) * RtoC w))%C) by (intros; ring).
      rewrite cross_scal, (H m (or_introl eq_refl)).

      rewrite !cross0_l. unfold R0. rewrite IH by (intros; apply H; right; auto). ring.
Qed.
Lemma cross_zero_l : forall h ms ws len, (forall m, In m ms -> cross_power s (lib_e q m) h = C0) -> cross_power s (ev (lib_e q) ms ws len) h = C0.
Proof.
  intros h ms. unfold ev.

  induction ms as [| m ms IH]; intros ws len H; cbn [map evolve]; [apply cross0_l |].
  destruct ws as [| w ws]; [apply cross0_l |].
  set (R0 := evolve (map (fun m => (lib_e q m, m_beta m)) ms) ws len).
  rewrite (cross_ext s _ h (fun c i j k => (fun c i j k => lib_e q m c i j k * (cis (m_beta m * len) * RtoC w))%C c i j k + R0 c i j k)%C (fun c i j k => h c i j k + (fun c i j k => h c i j k * C0)%C c i j k)%C);
    [| intros; ring | intros; ring].
  rewrite (cross_add (fun c i j k => lib_e q m c i j k * (cis (m_beta m * len) * RtoC w))%C R0 h (fun c i j k => h c i j k * C0)%C).
  rewrite (cross_ext s (fun c i j k => lib_e q m c i j k * (cis (m_beta m * len) * RtoC w))%C h (fun c i j k => lib_e q m c i j k * (cis (m_beta m * len) * RtoC w))%C (fun c i j k => h c i j k * C1)%C) by (intros; ring).
  rewrite (cross_ext s R0 (fun c i j k => h c i j k * C0)%C (fun c i j k => R0 c i j k * C1)%C (fun c i j k => h c i j k * C0)%C) by (intros; ring).
  rewrite !cross_scal, (H m (or_introl eq_refl)). unfold R0. rewrite IH by (intros; apply H; right; auto).
  replace (Cconj C0) with C0 by (apply C_eq; cbn; ring). ring.
Qed.
Lemma lib_orth : forall m1 m2, is_mode2 q m1 -> is_mode2 q m2 -> m_beta m1 * m_beta m1 <> m_beta m2 * m_beta m2 ->
  cross_power s (lib_e q m1) (lib_h q m2) = C0.
Proof.
  intros m1 m2 [H1 E1] [H2 E2] Hd. unfold lib_e, lib_h. apply modes_orth; auto; lra.
Qed.
Lemma distinct_head : forall m ms, distinct_sq (map m_beta (m :: ms)) -> (forall m', In m' ms -> m_beta m * m_beta m <> m_beta m' * m_beta m') /\ distinct_sq (map m_beta ms).
Proof.
  intros m ms H. split.
  - intros m' Hin. apply In_nth with (d := m) in Hin. destruct Hin as (n & Hn & <-).
    pose proof (H 0%nat (S n)) as P. cbn [map nth length] in P. rewrite map_length in P.
    rewrite (nth_indep (map m_beta ms) 0 (m_beta m)) in P by (rewrite map_length; auto). rewrite map_nth in P. apply P; lia.
  - intros a b Ha Hb Hab. pose proof (H (S a) (S b)) as P. cbn [map nth length] in P. apply P; lia.
Qed.
Lemma evolve_power : forall ms ws len, (forall m, In m ms -> is_mode2 q m) -> distinct_sq (map m_beta ms) ->
  cross_power s (ev (lib_e q) ms ws len) (ev (lib_h q) ms ws len) = weighted_power q ms ws.
Proof.
  induction ms as [| m ms IH]; intros ws len Hm Hd.
  - apply cross0_l.
  - destruct ws as [| w ws].
    + apply cross0_l.
    + destruct (distinct_head m ms Hd) as [Hh Ht]. cbn [weighted_power].
      rewrite <- (IH ws len) by (auto; intros; apply Hm; right; auto).
      pose (E0 := (fun c i j k => lib_e q m c i j k * (cis (m_beta m * len) * RtoC w))%C).
      pose (H0 := (fun c i j k => lib_h q m c i j k * (cis (m_beta m * len) * RtoC w))%C).
      rewrite (cross_ext s _ _ (fun c i j k => E0 c i j k + ev (lib_e q) ms ws len c i j k)%C (fun c i j k => H0 c i j k + ev (lib_h q) ms ws len c i j k)%C);
        [| intros; unfold ev, E0; cbn [map evolve]; ring | intros; unfold ev, H0; cbn [map evolve]; ring].
      rewrite cross_add. unfold E0 at 1, H0 at 1. rewrite cross_scal.
      rewrite (cross_zero_r E0 ms ws len), (cross_zero_l H0 ms ws len).
      * assert (U : (cis (m_beta m * len) * RtoC w * Cconj (cis (m_beta m * len) * RtoC w))%C = RtoC (w * w)).
        { pose proof (Cn2_cis (m_beta m * len)) as N. unfold Cn2 in N. apply C_eq; cbn [re im Cmul Cconj RtoC].
          - set (x := re (cis (m_beta m * len))) in *. set (y := im (cis (m_beta m * len))) in *.
            transitivity ((x ^ 2 + y ^ 2) * (w * w)); [ring |]. replace (x ^ 2 + y ^ 2) with 1 by (rewrite <- N; ring). ring.
          - ring. }
        rewrite U. ring.
      * intros m' Hin. rewrite (cross_ext s (lib_e q m') H0 (fun c i j k => lib_e q m' c i j k * C1)%C H0) by (intros; ring). unfold H0. rewrite cross_scal.
        rewrite lib_orth; [ring | apply Hm; right; auto | apply Hm; left; auto |]. intro X. apply (Hh m' Hin). lra.
      * intros m' Hin. rewrite (cross_ext s E0 (lib_h q m') E0 (fun c i j k => lib_h q m' c i j k * C1)%C) by (intros; ring). unfold E0. rewrite cross_scal.
        rewrite lib_orth; [ring | apply Hm; left; auto | apply Hm; right; auto |]. apply Hh; auto.
Qed.
End Evolve.
