(** C183: a CW run of a lossless simulation stays bounded exactly when FDFD has a solution for its source; otherwise it grows linearly. *)
From Coq Require Import Reals Lra Lia Psatz List Arith Bool Classical FunctionalExtensionality.
From Verif Require Import Cx Arr Model_coupling Model_yee Spec_yee Proof_yee Proof_yee2 Model_fdtd Spec_fdtd Proof_fdtd Proof_energy Proof_energy2 Proof_fdtd3 Proof_sym.
From Verif Require Import Model_fdfdc Proof_fdfdc2 Proof_fdfdc3 Proof_fdfdad Model_fdfd Spec_fdfd Spec_fdfdc Spec_fdfdst Proof_fdfd Proof_fdfd2 Proof_fdfd3 Spec_harm Proof_harm Proof_harm2 Spec_conv Proof_duhamel Proof_adj Spec_sym.
From Verif Require Import Spec_drive Proof_fred Proof_lockin Proof_yee3.
Import ListNotations.
Local Open Scope R_scope.

Lemma grid_flat : forall s (f : vec), Csum (npix s) f = grid_sum s (fun i j k => f (ridx s i j k)).
Proof. intros s f. unfold npix, grid_sum, ridx. rewrite Csum_prod, Csum_prod. reflexivity. Qed.
Lemma vpair_flat : forall s (y : nat -> C) (f : vfld),
  Csum (3 * npix s) (fun p => y p * ravel s (f (ax_of (p / npix s)%nat)) (p mod npix s)%nat)%C = vpair s (fun c i j k => y (num_of c * npix s + ridx s i j k)%nat) f.
Proof.
  intros s y f. rewrite Csum_prod. cbn [Csum]. unfold vpair, pair.
  assert (E : forall c, Csum (npix s) (fun j => y (num_of c * npix s + j)%nat * ravel s (f (ax_of ((num_of c * npix s + j) / npix s)%nat)) ((num_of c * npix s + j) mod npix s)%nat)%C =
    grid_sum s (fun i j k => y (num_of c * npix s + ridx s i j k)%nat * f c i j k)%C).
  { intro c. rewrite (Csum_ext (npix s) _ (fun j => y (num_of c * npix s + j)%nat * ravel s (f c) j)%C).
    - rewrite grid_flat. apply grid_sum_ext. intros i j k (Hi & Hj & Hl). rewrite ravel_ridx by auto. reflexivity.
    - intros r Hr. destruct (divmod_pair (npix s) (num_of c) r Hr) as [E1 E2]. rewrite E1, E2. destruct c; reflexivity. }
  pose proof (E AX) as EX. pose proof (E AY) as EY. pose proof (E AZ) as EZ. cbn [num_of] in EX, EY, EZ. cbn [num_of]. rewrite <- EX, <- EY, <- EZ. ring.
Qed.

Section Alt.
Variables (g : fgrid) (K : R).
Notation s := (g_shape g).
Notation d := (at_wavenumber g K).
Hypothesis HK : K <> 0.
Lemma op3_pair : forall u v, vpair s (op3 d u) v = vpair s u (op3 d v).
Proof.
  assert (H : forall u v, vpair s (op3 d u) v = (vpair s (curl_e g u) (curl_e g v) - RtoC (K * K) * vpair s (fun c i j k => RtoC (eps_t g false c i j k) * u c i j k) v)%C).
  { intros u v. transitivity (vpair s (lin C1 (- RtoC (K * K)) (curl_h g (curl_e g u)) (fun c i j k => RtoC (eps_t g false c i j k) * u c i j k)) v)%C.
    - apply vpair_ext. intros c i j k _. unfold op3, lin. cbn [at_wavenumber d_k0 d_eps]. change (dcurl_h d (dcurl_e d u)) with (curl_h g (curl_e g u)). ring.
    - rewrite vpair_lin. rewrite (vpair_sym s (curl_h g (curl_e g u)) v), <- curl_pair, (vpair_sym s (curl_e g v)). ring. }
  intros u v. rewrite (vpair_sym s u), !H, (vpair_sym s (curl_e g v)). f_equal. f_equal.
  unfold vpair, pair. f_equal; [f_equal |]; apply grid_sum_ext; intros; ring.
Qed.
Lemma vpair_zero : forall f, (forall e, vpair s f e = C0) -> forall c i j k, in_grid s i j k -> f c i j k = C0.
Proof.
  intros f H c i j k Hin. specialize (H (fun c i j k => Cconj (f c i j k))). apply (f_equal re) in H.
  assert (E : vpower2 s f = 0).
  { change (re C0) with 0 in H. rewrite <- H. unfold vpair, pair. cbn [re Cadd]. rewrite !re_grid_sum. unfold vpower2, sum3, power2.
    f_equal; [f_equal |]; apply rgrid_sum_ext; intros; unfold Cn2; cbn [re im Cmul Cconj]; ring. }
  assert (T : Cn2 (f c i j k) <= vpower2 s f).
  { pose proof (power2_term s (f c) i j k Hin) as P. unfold vpower2, sum3. pose proof (power2_nonneg s (f AX)). pose proof (power2_nonneg s (f AY)). pose proof (power2_nonneg s (f AZ)). destruct c; lra. }
  rewrite E in T. destruct (f c i j k) as [xr xi]. unfold Cn2 in T. cbn [re im] in T. apply C_eq; cbn [re im C0]; nra.
Qed.
Lemma alternative : forall src, (exists solver, exact3 d solver src) \/
  exists v, (forall c i j k, in_grid s i j k -> op3 d v c i j k = C0) /\ vpair s v src <> C0.
Proof.
  intro src. set (n := npix s). pose (cd := mkCfdfd s (d_dxf d) (d_dxb d) (d_bloch d) 0 (fun _ _ _ => C0)).
  destruct (fredholm (3 * n) (3 * n) (flat3 cd (mat3 d)) (fun p => ravel s (fun i j k => RtoC K * src (ax_of (p / n)%nat) i j k) (p mod n)%nat))%C as [[x Hx] | (y & Hy & Hb)].
  - left. exists (fun _ _ => block cd x). intros c r Hr. change (dn d) with n in *. change (d_k0 d) with K. change (d_shape d) with s.
    pose proof (flat3_apply cd (mat3 d) x c r Hr) as F. change (npix (cf_shape cd)) with n in F. rewrite <- F.
    unfold matvec. rewrite Hx by (destruct c; cbn [num_of]; lia). destruct (divmod_pair n (num_of c) r Hr) as [E1 E2]. rewrite E1, E2. destruct c; reflexivity.
  - right. exists (fun c i j k => y (num_of c * n + ridx s i j k)%nat). set (v := fun c i j k => y (num_of c * n + ridx s i j k)%nat).
    assert (A : forall e, vpair s v (op3 d e) = C0).
    { intro e. unfold v, n. rewrite <- (vpair_flat s y (op3 d e)). fold n.
      rewrite (Csum_ext (3 * n) _ (fun p => y p * Csum (3 * n) (fun q => flat3 cd (mat3 d) p q * ravel s (e (ax_of (q / n)%nat)) (q mod n)%nat))%C).
      2:{ intros p Hp. f_equal. destruct (flat_idx cd p Hp) as (c & r & Hr & ->). change (npix (cf_shape cd)) with n in *.
        pose proof (flat3_apply cd (mat3 d) (fun q => ravel s (e (ax_of (q / n)%nat)) (q mod n)%nat) c r Hr) as F. change (npix (cf_shape cd)) with n in F. unfold matvec in F. rewrite F.
        destruct (divmod_pair n (num_of c) r Hr) as [E1 E2]. rewrite E1, E2. replace (ax_of (num_of c)) with c by (destruct c; reflexivity).
        destruct (ridx_inv s r Hr) as (i & j & k & Hin & ->). pose proof Hin as (Hi & Hj & Hl). rewrite ravel_ridx by auto.
        rewrite <- mat3_op3 by auto. change (dn d) with n. change (d_shape d) with s. unfold bmatvec, block.
        change (npix (cf_shape cd)) with n.
        f_equal; [f_equal |]; apply matvec_ext; intros q Hq.
        - destruct (divmod_pair n 0 q Hq) as [Q1 Q2]. cbn [num_of]. rewrite Q1, Q2. reflexivity.
        - destruct (divmod_pair n 1 q Hq) as [Q1 Q2]. cbn [num_of]. rewrite Q1, Q2. reflexivity.
        - destruct (divmod_pair n 2 q Hq) as [Q1 Q2]. cbn [num_of]. rewrite Q1, Q2. reflexivity. }
      rewrite (Csum_ext (3 * n) _ (fun p => Csum (3 * n) (fun q => y p * flat3 cd (mat3 d) p q * ravel s (e (ax_of (q / n)%nat)) (q mod n)%nat))%C).
      2:{ intros p _. rewrite <- Csum_scal. apply Csum_ext. intros; ring. }
      rewrite Csum_swap. apply Csum_0. intros q Hq. rewrite Csum_scal_r, Hy by auto. ring. }
    split.
    + apply vpair_zero. intro e. rewrite op3_pair. apply A.
    + intro Z. apply Hb. etransitivity; [exact (vpair_flat s y (fun c i j k => RtoC K * src c i j k)%C) |]. fold n. fold v. rewrite vpair_sym.
      transitivity (RtoC K * vpair s src v + C0 * vpair s src v)%C; [rewrite <- vpair_lin; apply vpair_ext; intros; unfold lin; ring |].
      rewrite (vpair_sym s src), Z. ring.
Qed.
End Alt.

Section Grow.
Variables (g : fgrid) (om : R) (v src : vfld) (sch : nat -> list source) (st0 : fstate).
Notation s := (g_shape g).
Notation dt := (dt_of g).
Notation K := (lattice_wavenumber g om).
Hypothesis W : wf_grid g.
Hypothesis Hnz : forall c i j k, in_grid s i j k -> 1 <= eps_t g false c i j k.
Hypothesis HK : K <> 0.
Hypothesis Hel : forall n, electric (sch n).
Hypothesis Hc : forall n c i j k, in_grid s i j k -> current src_e (sch n) c i j k = (- (Ci * at_time om ((INR n + 1 / 2) * dt) src c i j k))%C.
Hypothesis Hv : forall c i j k, in_grid s i j k -> op3 (at_wavenumber g K) v c i j k = C0.
Notation S0 := (vpair s v src).
Hypothesis HS : S0 <> C0.
Definition rn (n : nat) : fstate := run g false st0 (map sch (seq 0 n)).
Lemma rn_S : forall n, rn (S n) = step g false (rn n) (sch n).
Proof. intro n. unfold rn. rewrite seq_S, map_app. cbn [map Nat.add]. apply run_snoc. Qed.
Definition wv : vfld := fun c i j k => (RtoC (eps_t g false c i j k) * v c i j k)%C.
Definition cv : vfld := curl_e g v.
Definition an (n : nat) : C := vpair s (f_e (rn n)) wv.
Definition bn (n : nat) : C := vpair s (f_h (rn n)) cv.
Lemma ccv : forall c i j k, in_grid s i j k -> curl_h g cv c i j k = (RtoC (K * K) * wv c i j k)%C.
Proof.
  intros c i j k Hin. specialize (Hv c i j k Hin). unfold op3 in Hv. cbn [at_wavenumber d_k0 d_eps] in Hv.
  change (dcurl_h (at_wavenumber g K) (dcurl_e (at_wavenumber g K) v)) with (curl_h g cv) in Hv. unfold wv.
  transitivity (curl_h g cv c i j k - RtoC (K * K) * RtoC (eps_t g false c i j k) * v c i j k + RtoC (K * K) * (RtoC (eps_t g false c i j k) * v c i j k))%C; [ring | rewrite Hv; ring].
Qed.
Lemma vpair_ext_r : forall f h h', (forall c i j k, in_grid s i j k -> h c i j k = h' c i j k) -> vpair s f h = vpair s f h'.
Proof. intros. rewrite !(vpair_sym s f). apply vpair_ext; auto. Qed.
Lemma vpair_scal' : forall c f h, vpair s (fun a i j k => c * f a i j k)%C h = (c * vpair s f h)%C.
Proof.
  intros. transitivity (vpair s (lin c C0 f f) h); [apply vpair_ext; intros; unfold lin; ring | rewrite vpair_lin; ring].
Qed.
Lemma an_S : forall n, an (S n) = (an n + RtoC dt * bn n + RtoC dt * Ci * cis (- (om * ((INR n + 1 / 2) * dt))) * S0)%C.
Proof.
  intro n. unfold an. rewrite rn_S.
  transitivity (vpair s (lin C1 C1 (lin C1 (RtoC dt) (fun c i j k => RtoC (eps_t g false c i j k) * f_e (rn n) c i j k)%C (curl_h g (f_h (rn n))))
     (fun c i j k => (RtoC dt * Ci * cis (- (om * ((INR n + 1 / 2) * dt)))) * src c i j k)%C) v).
  - transitivity (vpair s (fun c i j k => RtoC (eps_t g false c i j k) * f_e (step g false (rn n) (sch n)) c i j k)%C v).
    + unfold vpair, pair, wv. f_equal; [f_equal |]; apply grid_sum_ext; intros; ring.
    + apply vpair_ext. intros c i j k Hin. rewrite step_e_val, Hc by auto. unfold lin, at_time.
      assert (N : RtoC (eps_t g false c i j k) <> C0) by (apply RtoC_neq0; pose proof (Hnz c i j k Hin); lra). field. exact N.
  - rewrite !vpair_lin, vpair_scal'. rewrite (vpair_sym s (curl_h g (f_h (rn n))) v), <- curl_pair. fold cv. rewrite (vpair_sym s cv), (vpair_sym s src). fold (bn n).
    assert (E : vpair s (fun c i j k => RtoC (eps_t g false c i j k) * f_e (rn n) c i j k)%C v = vpair s (f_e (rn n)) wv).
    { unfold vpair, pair, wv. f_equal; [f_equal |]; apply grid_sum_ext; intros; ring. }
    rewrite E. ring.
Qed.
Lemma bn_S : forall n, bn (S n) = (bn n - RtoC dt * RtoC (K * K) * an (S n))%C.
Proof.
  intro n. unfold bn at 1, an. rewrite rn_S.
  transitivity (vpair s (lin C1 (- RtoC dt) (f_h (rn n)) (curl_e g (f_e (step g false (rn n) (sch n))))) cv)%C.
  - apply vpair_ext. intros c i j k _. rewrite step_h_val by auto. unfold lin. ring.
  - rewrite vpair_lin. fold (bn n). rewrite curl_pair. rewrite (vpair_ext_r _ (curl_h g cv) (fun c i j k => RtoC (K * K) * wv c i j k)%C) by (intros; apply ccv; auto).
    rewrite (vpair_sym s _ (fun c i j k => RtoC (K * K) * wv c i j k)%C), vpair_scal', (vpair_sym s wv). ring.
Qed.
Notation lam := (cis (- (om * dt))).
Definition l2 : C := ((C1 - lam) / (RtoC dt * RtoC (K * K)))%C.
Definition un (n : nat) : C := (cis (om * (INR n * dt)) * (an n + l2 * bn n))%C.
Definition qq : C := (Ci * RtoC dt * cis (- (om * dt / 2)) * S0)%C.
Lemma un_S : forall n, un (S n) = (un n + qq)%C.
Proof.
  intro n. unfold un. rewrite bn_S, an_S.
  assert (DC : RtoC dt <> C0) by (apply RtoC_neq0; pose proof (dt_pos g W); lra).
  assert (KC : RtoC (K * K) <> C0) by (apply RtoC_neq0, Rmult_integral_contrapositive; auto).
  set (a := an n). set (b := bn n). set (j := (RtoC dt * Ci * cis (- (om * ((INR n + 1 / 2) * dt))) * S0)%C).
  assert (Q : ((C1 - lam) * (C1 - lam) = - (RtoC dt * RtoC dt * RtoC (K * K) * lam))%C).
  { pose proof (half_turn (om * dt)) as T. assert (S2 : lam = (cis (- (om * dt / 2)) * cis (- (om * dt / 2)))%C) by (rewrite <- cis_add; f_equal; field).
    replace (C1 - lam)%C with (- (lam - C1))%C by ring. rewrite T, <- (kap_dt g W). rewrite S2, !RtoC_mul.
    assert (I2 : (Ci * Ci = - C1)%C) by (apply C_eq; cbn [re im Cmul Ci Copp C1]; ring).
    transitivity ((Ci * Ci) * (RtoC K * RtoC dt * (RtoC K * RtoC dt)) * (cis (- (om * dt / 2)) * cis (- (om * dt / 2))))%C; [ring | rewrite I2; ring]. }
  assert (E : (a + RtoC dt * b + j + l2 * (b - RtoC dt * RtoC (K * K) * (a + RtoC dt * b + j)) = lam * (a + l2 * b + j))%C).
  { assert (L1 : (l2 * (RtoC dt * RtoC (K * K)) = C1 - lam)%C) by (unfold l2; field; auto).
    assert (L2 : (l2 * (C1 - lam) = - (RtoC dt * lam))%C).
    { transitivity ((C1 - lam) * (C1 - lam) / (RtoC dt * RtoC (K * K)))%C; [unfold l2; field; auto |]. rewrite Q. field. auto. }
    transitivity (a + RtoC dt * b + j + l2 * b - l2 * (RtoC dt * RtoC (K * K)) * (a + RtoC dt * b + j))%C; [ring |]. rewrite L1.
    transitivity (lam * (a + j) + l2 * b + lam * (RtoC dt * b))%C; [ring |].
    transitivity (lam * (a + j) + l2 * b - l2 * (C1 - lam) * b)%C; [rewrite L2; ring | ring]. }
  rewrite E. unfold j. fold a b.
  assert (P1 : (cis (om * (INR (S n) * dt)) * lam = cis (om * (INR n * dt)))%C) by (rewrite <- cis_add; f_equal; rewrite S_INR; ring).
  assert (P2 : (cis (om * (INR n * dt)) * cis (- (om * ((INR n + 1 / 2) * dt))) = cis (- (om * dt / 2)))%C) by (rewrite <- cis_add; f_equal; field).
  set (X := cis (om * (INR n * dt))) in *. set (Y := cis (- (om * ((INR n + 1 / 2) * dt)))) in *. unfold qq. rewrite <- P2.
  transitivity (cis (om * (INR (S n) * dt)) * lam * (a + l2 * b + RtoC dt * Ci * Y * S0))%C; [ring | rewrite P1; ring].
Qed.
Lemma un_val : forall n, un n = (un 0 + RtoC (INR n) * qq)%C.
Proof.
  induction n; [cbn [INR]; apply C_eq; cbn [re im Cadd Cmul RtoC]; ring |]. rewrite un_S, IHn, S_INR, RtoC_add. replace (RtoC 1) with C1 by reflexivity. ring.
Qed.
Lemma part_e : forall st, vnorm2 s (f_e st) <= sqrt (field_energy g false st) /\ vnorm2 s (f_h st) <= sqrt (field_energy g false st).
Proof.
  intro st. unfold vnorm2. split; apply sqrt_le_1_alt; unfold vpower2, field_energy, sum3, power2;
    (apply Rplus_le_compat; [apply Rplus_le_compat |]; apply rgrid_sum_le; intros i j k Hin;
     cbv beta; match goal with |- context [eps_t g false ?c i j k] => pose proof (Hnz c i j k Hin); pose proof (Cn2_nonneg (f_e st c i j k)); pose proof (Cn2_nonneg (f_h st c i j k)); nra end).
Qed.
Lemma grows : exists c a, 0 < c /\ forall n, c * INR n - a <= sqrt (field_energy g false (rn n)).
Proof.
  set (A := vnorm2 s wv + Cabs l2 * vnorm2 s cv + 1).
  assert (Nn : forall f, 0 <= vnorm2 s f) by (intro; apply sqrt_pos).
  assert (A1 : 1 <= A). { unfold A. pose proof (Nn wv) as N1. pose proof (Rmult_le_pos _ _ (Cabs_nonneg l2) (Nn cv)) as N2. lra. }
  assert (Qp : 0 < Cabs qq).
  { unfold qq. rewrite !Cabs_mul, Cabs_cis. assert (C : Cabs Ci = 1) by (unfold Cabs, Cn2; cbn [re im Ci]; replace (0 * 0 + 1 * 1) with 1 by ring; apply sqrt_1).
    rewrite C, Cabs_RtoC by (apply Rlt_le, dt_pos; auto). pose proof (dt_pos g W).
    assert (0 < Cabs S0). { unfold Cabs. apply sqrt_lt_R0. pose proof (Cn2_nonneg S0) as [P | P]; [exact P |]. exfalso. apply HS. destruct S0 as [xr xi]. unfold Cn2 in P. cbn [re im] in P. apply C_eq; cbn [re im C0]; nra. }
    nra. }
  assert (Ub : forall n, Cabs (un n) <= A * sqrt (field_energy g false (rn n))).
  { intro n. unfold un. rewrite Cabs_mul, Cabs_cis, Rmult_1_l. eapply Rle_trans; [apply Cabs_add |]. rewrite Cabs_mul.
    destruct (part_e (rn n)) as [P1 P2]. pose proof (vpair_CS s (f_e (rn n)) wv) as V1. pose proof (vpair_CS s (f_h (rn n)) cv) as V2. fold (an n) in V1. fold (bn n) in V2.
    set (F := sqrt (field_energy g false (rn n))) in *. pose proof (Nn wv); pose proof (Nn cv); pose proof (Cabs_nonneg l2). pose proof (Nn (f_e (rn n))). pose proof (Nn (f_h (rn n))).
    assert (Cabs (an n) <= F * vnorm2 s wv) by (eapply Rle_trans; [exact V1 | apply Rmult_le_compat_r; auto]).
    assert (Cabs (bn n) <= F * vnorm2 s cv) by (eapply Rle_trans; [exact V2 | apply Rmult_le_compat_r; auto]).
    assert (Cabs l2 * Cabs (bn n) <= Cabs l2 * (F * vnorm2 s cv)) by (apply Rmult_le_compat_l; auto).
    unfold A. assert (0 <= F) by apply sqrt_pos. nra. }
  exists (Cabs qq / A), (Cabs (un 0) / A). split; [apply Rdiv_lt_0_compat; lra |]. intro n.
  assert (L : INR n * Cabs qq - Cabs (un 0) <= Cabs (un n)).
  { assert (T : Cabs (un n - un 0)%C <= Cabs (un n) + Cabs (un 0)) by apply Cabs_sub.
    replace (un n - un 0)%C with (RtoC (INR n) * qq)%C in T by (rewrite (un_val n); ring). rewrite Cabs_mul, Cabs_RtoC in T by apply pos_INR. lra. }
  specialize (Ub n). apply Rmult_le_reg_l with A; [lra |]. replace (A * (Cabs qq / A * INR n - Cabs (un 0) / A)) with (INR n * Cabs qq - Cabs (un 0)) by (field; lra). lra.
Qed.
End Grow.

(** ** The dichotomy. *)
Lemma driven_growth : forall g, wf_grid g -> (forall i j k, in_grid (g_shape g) i j k -> 1 <= g_eps g i j k) ->
  forall om src sch, let d := at_wavenumber g (lattice_wavenumber g om) in
  lattice_wavenumber g om <> 0 -> (forall n, electric (sch n)) ->
  (forall n c i j k, in_grid (g_shape g) i j k -> current src_e (sch n) c i j k = (- (Ci * at_time om ((INR n + 1 / 2) * dt_of g) src c i j k))%C) ->
  (~ exists solver, exact3 d solver src) -> forall st0, exists c a, 0 < c /\
  forall n, c * INR n - a <= sqrt (field_energy g false (run g false st0 (map sch (seq 0 n)))).
Proof.
  intros g W He om src sch d HK Hel Hc Hn st0. destruct (alternative g (lattice_wavenumber g om) src) as [H | (v & Hv & HS)]; [contradiction |].
  exact (grows g om v src sch st0 W (eps_t_lower g false 1 He) HK Hel Hc Hv HS).
Qed.
Lemma driven_bounded : forall g kap, wf_grid g -> 1 < kap -> (forall i j k, in_grid (g_shape g) i j k -> kap <= g_eps g i j k) ->
  forall om src sch, let d := at_wavenumber g (lattice_wavenumber g om) in
  lattice_wavenumber g om <> 0 -> (forall n, electric (sch n)) ->
  (forall n c i j k, in_grid (g_shape g) i j k -> current src_e (sch n) c i j k = (- (Ci * at_time om ((INR n + 1 / 2) * dt_of g) src c i j k))%C) ->
  forall st0, (exists B, forall n, field_energy g false (run g false st0 (map sch (seq 0 n))) <= B) <-> (exists solver, exact3 d solver src).
Proof.
  intros g kap W Hk He om src sch d HK Hel Hc st0. split.
  - intros [B HB]. apply NNPP. intro Hn.
    destruct (driven_growth g W (fun i j k H => Rle_trans _ _ _ (Rlt_le _ _ Hk) (He i j k H)) om src sch HK Hel Hc Hn st0) as (c & a & Hc0 & G).
    assert (exists n, (sqrt B + a) / c < INR n) as [n N].
    { destruct (Rle_lt_dec ((sqrt B + a) / c) 0) as [L | L]; [exists 1%nat; cbn [INR]; lra |].
      exists (Z.to_nat (up ((sqrt B + a) / c))). destruct (archimed ((sqrt B + a) / c)) as [U _]. rewrite INR_IZR_INZ, Z2Nat.id; [lra |]. apply le_IZR. lra. }
    specialize (G n). specialize (HB n). apply sqrt_le_1_alt in HB.
    assert (c * ((sqrt B + a) / c) < c * INR n) by (apply Rmult_lt_compat_l; auto). replace (c * ((sqrt B + a) / c)) with (sqrt B + a) in H by (field; lra). lra.
  - intros [solver Hs]. set (F := field_energy g false).
    pose proof (never_settles g kap W Hk He om solver src sch HK Hs Hel Hc st0) as N. cbv zeta in N. fold F in N.
    pose (per := fun t => steady g om solver src t).
    assert (Pn : forall st, 0 <= F st) by (intro; apply (energy_nonneg g false kap ltac:(lra) (eps_t_lower g false kap He))).
    assert (Two : forall a b, F a <= 2 * F (gap a b) + 2 * F b).
    { intros a b. unfold F, field_energy, sum3. pose proof (eps_t_lower g false kap He) as L.
      assert (X : forall c, rgrid_sum (g_shape g) (fun i j k => eps_t g false c i j k * Cn2 (f_e a c i j k) + Cn2 (f_h a c i j k)) <=
        2 * rgrid_sum (g_shape g) (fun i j k => eps_t g false c i j k * Cn2 (f_e (gap a b) c i j k) + Cn2 (f_h (gap a b) c i j k)) +
        2 * rgrid_sum (g_shape g) (fun i j k => eps_t g false c i j k * Cn2 (f_e b c i j k) + Cn2 (f_h b c i j k))).
      { intro c. rewrite <- !rgrid_sum_scal, <- rgrid_sum_add. apply rgrid_sum_le. intros i j k Hin. pose proof (L c i j k Hin) as E. unfold gap. cbn [f_e f_h].
        assert (T : forall p q, Cn2 p <= 2 * Cn2 (p - q)%C + 2 * Cn2 q). { intros p q. pose proof (Cn2_sub_le (p - q)%C (- q)%C) as T. replace (p - q - - q)%C with p in T by ring. replace (Cn2 (- q)%C) with (Cn2 q) in T by (unfold Cn2; cbn [re im Copp]; ring). exact T. }
        pose proof (T (f_e a c i j k) (f_e b c i j k)) as T1. pose proof (T (f_h a c i j k) (f_h b c i j k)) as T2.
        assert (eps_t g false c i j k * Cn2 (f_e a c i j k) <= eps_t g false c i j k * (2 * Cn2 (f_e a c i j k - f_e b c i j k)%C + 2 * Cn2 (f_e b c i j k))) by (apply Rmult_le_compat_l; lra). lra. }
      pose proof (X AX); pose proof (X AY); pose proof (X AZ). lra. }
    assert (Ps : forall t, F (per t) = F (mkState (fst (solve3 d solver src)) (snd (solve3 d solver src)))).
    { intro t. unfold F, field_energy, sum3, per, steady, at_time. cbn [f_e f_h]. 
      assert (Q : forall x z, Cn2 (cis x * z)%C = Cn2 z). { intros. rewrite Cn2_mul. rewrite <- (Cabs_sq (cis x)), Cabs_cis. ring. }
      f_equal; [f_equal |]; apply rgrid_sum_ext; intros; rewrite !Q; reflexivity. }
    exists (2 * (2 / (1 - / sqrt kap) * F (gap (run g false st0 (map sch (seq 0 0))) (per (INR 0 * dt_of g)))) + 2 * F (mkState (fst (solve3 d solver src)) (snd (solve3 d solver src)))).
    intro n. destruct (N n) as [_ U]. pose proof (Two (run g false st0 (map sch (seq 0 n))) (per (INR n * dt_of g))) as T. rewrite Ps in T. fold F.
    unfold per in T. unfold per. lra.
Qed.

(** Two cells of permittivity 4, width 1: the alternating field is a resonance at frequency pi/3. *)
Lemma no_solution : forall g K v src, K <> 0 -> (forall c i j k, in_grid (g_shape g) i j k -> op3 (at_wavenumber g K) v c i j k = C0) ->
  vpair (g_shape g) v src <> C0 -> ~ exists solver, exact3 (at_wavenumber g K) solver src.
Proof.
  intros g K v src HK Hv HS [solver Hs]. pose proof (exact3_op3 (at_wavenumber g K) solver src eq_refl Hs) as O. cbn [at_wavenumber d_shape d_k0] in O.
  change (mkFdfd (g_shape g) (g_dx g) (g_dx g) (fun _ => C1) K (eps_t g false)) with (at_wavenumber g K) in O.
  apply HS. pose proof (op3_pair g K (fst (solve3 (at_wavenumber g K) solver src)) v) as P.
  rewrite (vpair_sym _ _ (op3 _ v)), (vpair_0 _ (op3 _ v) _ Hv) in P. rewrite (vpair_ext _ _ (fun c i j k => RtoC K * src c i j k)%C) in P by (intros; apply O; auto).
  rewrite vpair_scal', vpair_sym in P. assert (KC : RtoC K <> C0) by (apply RtoC_neq0; auto).
  transitivity (RtoC K * vpair (g_shape g) v src / RtoC K)%C; [field; auto | rewrite P; unfold Cdiv; ring].
Qed.
Lemma two_dt : dt_of two_grid = 1.
Proof.
  unfold dt_of. replace (inv_sq two_grid AX + inv_sq two_grid AY + inv_sq two_grid AZ) with 1.
  - rewrite sqrt_1. field.
  - unfold inv_sq. cbn. field.
Qed.
Lemma two_wf : wf_grid two_grid.
Proof.
  split; [cbn; lia |]. split; [intro a; destruct a; cbn; lia |]. split; intros a Ha; [cbn; lra |]. destruct a; [discriminate | reflexivity | reflexivity].
Qed.
Lemma two_wave : lattice_wavenumber two_grid (PI / 3) = 1.
Proof. unfold lattice_wavenumber. rewrite two_dt. replace (PI / 3 * 1 / 2) with (PI / 6) by field. rewrite sin_PI6. field. Qed.
Lemma two_eps : forall c i j k, in_grid (g_shape two_grid) i j k -> eps_t two_grid false c i j k = 4.
Proof. intros c i j k Hin. apply yee_avg_const; auto. Qed.
Lemma two_mode : forall c i j k, in_grid (g_shape two_grid) i j k -> op3 (at_wavenumber two_grid 1) alternating c i j k = C0.
Proof.
  intros c i j k Hin. unfold op3. cbn [at_wavenumber d_k0 d_eps]. rewrite two_eps by auto. destruct Hin as (Hi & Hj & Hk). cbn in Hi, Hj, Hk.
  assert (j = 0%nat) by lia. assert (k = 0%nat) by lia. subst j k.
  unfold dcurl_h, dcurl_e. cbn [at_wavenumber d_shape d_dxb d_dxf]. unfold g_dx, uniform_dx, is_active.
  destruct i as [| [| i]]; [| | lia]; destruct c; unfold curl_fn, diff_fn, roll_m1, roll_p1, along, coord, nxt, prv, alternating; cbn; apply C_eq; unfold Cdiv, Cinv, Cn2; cbn [re im RtoC Csub Cmul Cadd Copp C0 C1]; field.
Qed.
Lemma two_pair : vpair (g_shape two_grid) alternating alternating = RtoC 2.
Proof. unfold vpair, pair, grid_sum, alternating. cbn. apply C_eq; cbn [re im RtoC Csub Cmul Cadd Copp C0 C1]; ring. Qed.
Lemma two_resonance : wf_grid two_grid /\ lattice_wavenumber two_grid (PI / 3) = 1 /\ ~ exists solver, exact3 (at_wavenumber two_grid 1) solver alternating.
Proof.
  split; [apply two_wf |]. split; [apply two_wave |]. apply (no_solution two_grid 1 alternating alternating); [lra | apply two_mode |].
  rewrite two_pair. apply RtoC_neq0. lra.
Qed.

Lemma kernel_maxwell : forall g K v, K <> 0 -> (forall c i j k, in_grid (g_shape g) i j k -> op3 (at_wavenumber g K) v c i j k = C0) <->
  exists h, faraday (g_shape g) (g_dx g) K v h /\ ampere (g_shape g) (g_dx g) K (eps_t g false) v h (fun _ _ _ _ => C0).
Proof.
  intros g K v HK. assert (KC : RtoC K <> C0) by (apply RtoC_neq0; auto).
  assert (CiC : Ci <> C0). { intro Z. apply (f_equal im) in Z. cbn in Z. lra. }
  assert (I2 : (Ci * Ci = - C1)%C) by (apply C_eq; cbn [re im Cmul Ci Copp C1]; ring).
  assert (Op : forall c i j k, op3 (at_wavenumber g K) v c i j k = (curl_h g (curl_e g v) c i j k - RtoC K * RtoC K * RtoC (eps_t g false c i j k) * v c i j k)%C).
  { intros. unfold op3. cbn [at_wavenumber d_k0 d_eps]. rewrite RtoC_mul. reflexivity. }
  assert (Cs : forall h : vfld, (forall c i j k, in_grid (g_shape g) i j k -> curl_e g v c i j k = (Ci * RtoC K * h c i j k)%C) ->
    forall c i j k, in_grid (g_shape g) i j k -> curl_h g (curl_e g v) c i j k = (Ci * RtoC K * curl_h g h c i j k)%C).
  { intros h H c i j k Hin. unfold curl_h. rewrite (curl_ext (g_shape g) (g_dx g) true (curl_e g v) (fun c i j k => Ci * RtoC K * h c i j k)%C) by auto. apply curl_scal. }
  split.
  - intros H. exists (fun c i j k => curl_e g v c i j k / (Ci * RtoC K))%C.
    assert (F : forall c i j k, curl_e g v c i j k = (Ci * RtoC K * (curl_e g v c i j k / (Ci * RtoC K)))%C) by (intros; field; auto).
    split; intros c i j k Hin.
    + rewrite <- curl_fwd by auto. change (curl_fn (diff_fn (g_shape g) (g_dx g) false) v) with (curl_e g v). apply F.
    + rewrite <- curl_bwd by auto. specialize (H c i j k Hin). rewrite Op in H.
      pose proof (Cs _ (fun c i j k _ => F c i j k) c i j k Hin) as Q.
      set (h := fun c i j k => (curl_e g v c i j k / (Ci * RtoC K))%C) in *. change (curl_fn (diff_fn (g_shape g) (g_dx g) true) h c i j k) with (curl_h g h c i j k).
      transitivity ((Ci * RtoC K * curl_h g h c i j k) / (Ci * RtoC K))%C; [field; auto |]. rewrite <- Q.
      transitivity ((RtoC K * RtoC K * RtoC (eps_t g false c i j k) * v c i j k + (curl_h g (curl_e g v) c i j k - RtoC K * RtoC K * RtoC (eps_t g false c i j k) * v c i j k)) / (Ci * RtoC K))%C; [f_equal; ring |].
      rewrite H. transitivity (- (Ci * Ci) * (RtoC K * RtoC K * RtoC (eps_t g false c i j k) * v c i j k) / (Ci * RtoC K))%C; [rewrite I2; field; auto | field; auto].
  - intros (h & HF & HA) c i j k Hin. rewrite Op.
    assert (F : forall c i j k, in_grid (g_shape g) i j k -> curl_e g v c i j k = (Ci * RtoC K * h c i j k)%C).
    { intros c' i' j' k' H'. rewrite <- HF by auto. rewrite <- curl_fwd by auto. reflexivity. }
    rewrite (Cs h F c i j k Hin). specialize (HA c i j k Hin). rewrite <- curl_bwd in HA by auto. change (curl_fn (diff_fn (g_shape g) (g_dx g) true) h c i j k) with (curl_h g h c i j k) in HA. rewrite HA.
    transitivity (- (Ci * Ci) * (RtoC K * RtoC K * RtoC (eps_t g false c i j k) * v c i j k) - RtoC K * RtoC K * RtoC (eps_t g false c i j k) * v c i j k)%C; [ring | rewrite I2; ring].
Qed.
Lemma solvable_iff : forall g om src, let d := at_wavenumber g (lattice_wavenumber g om) in lattice_wavenumber g om <> 0 ->
  ((exists solver, exact3 d solver src) <->
   forall v, (exists h, faraday (g_shape g) (g_dx g) (lattice_wavenumber g om) v h /\
     ampere (g_shape g) (g_dx g) (lattice_wavenumber g om) (eps_t g false) v h (fun _ _ _ _ => C0)) -> vpair (g_shape g) v src = C0).
Proof.
  intros g om src d HK. split.
  - intros Hs v Hv. apply NNPP. intro Z. pose proof (proj2 (kernel_maxwell g _ v HK) Hv) as Hv2. exact (no_solution g _ v src HK Hv2 Z Hs).
  - intros H. destruct (alternative g (lattice_wavenumber g om) src) as [S | (v & Hv & HS)]; [exact S |]. exfalso. exact (HS (H v (proj1 (kernel_maxwell g _ v HK) Hv))).
Qed.
Lemma cw_current : forall g om src n c i j k, current src_e (cw_schedule g om src n) c i j k = (- (Ci * at_time om ((INR n + 1 / 2) * dt_of g) src c i j k))%C.
Proof. intros. unfold cw_schedule. cbn [current]. unfold masked, zero_vfld, Model_fdtd.zero_vfld. cbn [src_e src_region]. ring. Qed.
Lemma two_driven : wf_grid two_grid /\ lattice_wavenumber two_grid (PI / 3) = 1 /\ (forall n, electric (cw_schedule two_grid (PI / 3) alternating n)) /\
  (~ exists solver, exact3 (at_wavenumber two_grid (lattice_wavenumber two_grid (PI / 3))) solver alternating) /\
  forall B, exists n, B < field_energy two_grid false (run two_grid false zero_state (map (cw_schedule two_grid (PI / 3) alternating) (seq 0 n))).
Proof.
  destruct two_resonance as (W & E & N). assert (N2 : ~ exists solver, exact3 (at_wavenumber two_grid (lattice_wavenumber two_grid (PI / 3))) solver alternating) by (rewrite E; exact N). clear N; rename N2 into N. split; [exact W |]. split; [exact E |]. assert (Hel : forall n, electric (cw_schedule two_grid (PI / 3) alternating n)) by (intro; repeat constructor).
  split; [exact Hel |]. split; [exact N |]. intro B. apply NNPP. intro Z.
  assert (He : forall i j k, in_grid (g_shape two_grid) i j k -> 4 <= g_eps two_grid i j k) by (intros; cbn; lra).
  apply N. apply (proj1 (driven_bounded two_grid 4 W ltac:(lra) He (PI / 3) alternating (cw_schedule two_grid (PI / 3) alternating) ltac:(rewrite E; lra) Hel (fun n c i j k _ => cw_current _ _ _ n c i j k) zero_state)).
  exists B. intro n. apply Rnot_lt_le. intro L. apply Z. exists n. exact L.
Qed.
