(** The leapfrog energy of the FDTD scheme: conservation and stability at the built-in time step. *)
From Coq Require Import Reals Lra Lia Psatz List Arith Bool FunctionalExtensionality.
From Verif Require Import Cx Arr Model_yee Spec_yee Proof_yee Proof_yee2 Model_fdtd Spec_fdtd Proof_fdtd.
Import ListNotations.
Local Open Scope R_scope.

(** ** Real inner product of scalar and vector fields *)
Definition sin_ (s : shape3) (f g : fld) : R := re (inner s f g).
Definition rin (s : shape3) (f g : vfld) : R := re (vinner s f g).
Definition vadd (f g : vfld) : vfld := fun c i j k => (f c i j k + g c i j k)%C.
Definition vscal (x : R) (f : vfld) : vfld := fun c i j k => (RtoC x * f c i j k)%C.

Lemma rin_split : forall s f g, rin s f g = sin_ s (f AX) (g AX) + sin_ s (f AY) (g AY) + sin_ s (f AZ) (g AZ).
Proof. intros. unfold rin, vinner, sin_. cbn [re Cadd]. ring. Qed.
Lemma sin_ext : forall s f f' g g', (forall i j k, in_grid s i j k -> f i j k = f' i j k) ->
  (forall i j k, in_grid s i j k -> g i j k = g' i j k) -> sin_ s f g = sin_ s f' g'.
Proof. intros. unfold sin_, inner. f_equal. apply grid_sum_ext; intros. rewrite H, H0; auto. Qed.
Lemma sin_add_l : forall s f g h, sin_ s (fun i j k => f i j k + g i j k)%C h = sin_ s f h + sin_ s g h.
Proof.
  intros. unfold sin_, inner. replace (re (grid_sum s (fun i j k => f i j k * Cconj (h i j k))%C) +
    re (grid_sum s (fun i j k => g i j k * Cconj (h i j k))%C)) with
    (re (grid_sum s (fun i j k => f i j k * Cconj (h i j k))%C + grid_sum s (fun i j k => g i j k * Cconj (h i j k))%C)%C) by reflexivity.
  rewrite <- grid_sum_add. f_equal. apply grid_sum_ext; intros; ring.
Qed.
Lemma sin_scal_l : forall s x f h, sin_ s (fun i j k => RtoC x * f i j k)%C h = x * sin_ s f h.
Proof.
  intros. unfold sin_, inner. replace (x * re (grid_sum s (fun i j k => f i j k * Cconj (h i j k))%C)) with
    (re (RtoC x * grid_sum s (fun i j k => f i j k * Cconj (h i j k)))%C) by (cbn [re Cmul RtoC im]; ring).
  rewrite <- grid_sum_scal. f_equal. apply grid_sum_ext; intros; ring.
Qed.
Lemma sin_sym : forall s f g, sin_ s f g = sin_ s g f.
Proof.
  intros. unfold sin_, inner. transitivity (re (Cconj (grid_sum s (fun i j k => f i j k * Cconj (g i j k))%C))); [reflexivity |].
  rewrite grid_sum_conj. f_equal. apply grid_sum_ext; intros. rewrite Cconj_mul, Cconj_conj. ring.
Qed.
Lemma re_grid_sum : forall s F, re (grid_sum s F) = rgrid_sum s (fun i j k => re (F i j k)).
Proof.
  intros. unfold grid_sum, rgrid_sum. rewrite re_Csum. apply Rsum_ext; intros i _. rewrite re_Csum. apply Rsum_ext; intros j _.
  apply re_Csum.
Qed.
Lemma rgrid_sum_ext : forall s F G, (forall i j k, in_grid s i j k -> F i j k = G i j k) -> rgrid_sum s F = rgrid_sum s G.
Proof.
  intros s F G H. unfold rgrid_sum. apply Rsum_ext; intros i Hi. apply Rsum_ext; intros j Hj. apply Rsum_ext; intros k Hk.
  apply H. split; [| split]; auto.
Qed.
Lemma rgrid_sum_nonneg : forall s F, (forall i j k, in_grid s i j k -> 0 <= F i j k) -> 0 <= rgrid_sum s F.
Proof.
  intros s F H. unfold rgrid_sum. apply Rsum_nonneg; intros i Hi. apply Rsum_nonneg; intros j Hj. apply Rsum_nonneg; intros k Hk.
  apply H. split; [| split]; auto.
Qed.
Lemma rgrid_sum_le : forall s F G, (forall i j k, in_grid s i j k -> F i j k <= G i j k) -> rgrid_sum s F <= rgrid_sum s G.
Proof.
  intros s F G H. unfold rgrid_sum. apply Rsum_le; intros i Hi. apply Rsum_le; intros j Hj. apply Rsum_le; intros k Hk.
  apply H. split; [| split]; auto.
Qed.
Lemma rgrid_sum_add : forall s F G, rgrid_sum s (fun i j k => F i j k + G i j k) = rgrid_sum s F + rgrid_sum s G.
Proof.
  intros. unfold rgrid_sum. rewrite <- Rsum_add. apply Rsum_ext; intros i _. rewrite <- Rsum_add. apply Rsum_ext; intros j _.
  apply Rsum_add.
Qed.
Lemma rgrid_sum_scal : forall s x F, rgrid_sum s (fun i j k => x * F i j k) = x * rgrid_sum s F.
Proof.
  intros. unfold rgrid_sum. rewrite <- Rsum_scal. apply Rsum_ext; intros i _. rewrite <- Rsum_scal. apply Rsum_ext; intros j _.
  apply Rsum_scal.
Qed.
Lemma sin_self : forall s f, sin_ s f f = rgrid_sum s (fun i j k => Cn2 (f i j k)).
Proof.
  intros. unfold sin_, inner. rewrite re_grid_sum. apply rgrid_sum_ext; intros. rewrite Cmul_conj. reflexivity.
Qed.
Lemma sin_pos : forall s f, 0 <= sin_ s f f.
Proof. intros. rewrite sin_self. apply rgrid_sum_nonneg; intros. apply Cn2_nonneg. Qed.

Lemma rin_ext : forall s f f' g g', (forall c i j k, in_grid s i j k -> f c i j k = f' c i j k) ->
  (forall c i j k, in_grid s i j k -> g c i j k = g' c i j k) -> rin s f g = rin s f' g'.
Proof.
  intros. rewrite !rin_split.
  rewrite (sin_ext s (f AX) (f' AX) (g AX) (g' AX)), (sin_ext s (f AY) (f' AY) (g AY) (g' AY)), (sin_ext s (f AZ) (f' AZ) (g AZ) (g' AZ)); auto.
Qed.
Lemma rin_add_l : forall s f g h, rin s (vadd f g) h = rin s f h + rin s g h.
Proof. intros. rewrite !rin_split. unfold vadd. rewrite !sin_add_l. ring. Qed.
Lemma rin_scal_l : forall s x f h, rin s (vscal x f) h = x * rin s f h.
Proof. intros. rewrite !rin_split. unfold vscal. rewrite !sin_scal_l. ring. Qed.
Lemma rin_sym : forall s f g, rin s f g = rin s g f.
Proof. intros. rewrite !rin_split. rewrite (sin_sym s (f AX)), (sin_sym s (f AY)), (sin_sym s (f AZ)). ring. Qed.
Lemma rin_add_r : forall s f g h, rin s h (vadd f g) = rin s h f + rin s h g.
Proof. intros. rewrite rin_sym, rin_add_l, (rin_sym s f), (rin_sym s g). ring. Qed.
Lemma rin_scal_r : forall s x f h, rin s h (vscal x f) = x * rin s h f.
Proof. intros. rewrite rin_sym, rin_scal_l, (rin_sym s f). ring. Qed.
Lemma rin_pos : forall s f, 0 <= rin s f f.
Proof. intros. rewrite rin_split. pose proof (sin_pos s (f AX)); pose proof (sin_pos s (f AY)); pose proof (sin_pos s (f AZ)). lra. Qed.

(** Cauchy-Schwarz and the triangle inequality for a nonnegative quadratic form A + 2 B x + C x^2. *)
Lemma disc : forall A B C, (forall x, 0 <= A + 2 * B * x + C * x * x) -> 0 <= A -> 0 <= C -> B * B <= A * C.
Proof.
  intros A B C H HA HC. destruct (Req_EM_T C 0) as [E | E].
  - subst C. destruct (Req_EM_T B 0) as [EB | EB]; [subst; lra |].
    exfalso. pose proof (H (- (A + 1) / (2 * B))) as H1.
    replace (A + 2 * B * (- (A + 1) / (2 * B)) + 0 * (- (A + 1) / (2 * B)) * (- (A + 1) / (2 * B))) with (- 1) in H1 by (field; auto). lra.
  - assert (0 < C) by lra. pose proof (H (- B / C)) as H1.
    replace (A + 2 * B * (- B / C) + C * (- B / C) * (- B / C)) with ((A * C - B * B) / C) in H1 by (field; auto).
    apply Rmult_le_compat_r with (r := C) in H1; [| lra]. unfold Rdiv in H1. rewrite Rmult_assoc, Rinv_l in H1 by auto. lra.
Qed.
Lemma rin_CS : forall s f g, rin s f g * rin s f g <= rin s f f * rin s g g.
Proof.
  intros. apply disc; try apply rin_pos. intro x. pose proof (rin_pos s (vadd f (vscal x g))) as H.
  rewrite rin_add_l, !rin_add_r, !rin_scal_l, !rin_scal_r in H. rewrite (rin_sym s g f) in H. nra.
Qed.
Definition nrm (s : shape3) (f : vfld) : R := sqrt (rin s f f).
Lemma nrm_sq : forall s f, nrm s f * nrm s f = rin s f f.
Proof. intros. apply sqrt_sqrt, rin_pos. Qed.
Lemma nrm_pos : forall s f, 0 <= nrm s f.
Proof. intros. apply sqrt_pos. Qed.
Lemma sq_le_le : forall a b, 0 <= b -> a * a <= b * b -> a <= b.
Proof. intros a b Hb H. destruct (Rle_dec a b); auto. nra. Qed.
Lemma rin_le_nrm : forall s f g, rin s f g <= nrm s f * nrm s g.
Proof.
  intros. pose proof (nrm_pos s f); pose proof (nrm_pos s g). apply sq_le_le; [nra |].
  pose proof (rin_CS s f g). pose proof (nrm_sq s f) as E1. pose proof (nrm_sq s g) as E2.
  replace (nrm s f * nrm s g * (nrm s f * nrm s g)) with ((nrm s f * nrm s f) * (nrm s g * nrm s g)) by ring.
  rewrite E1, E2. auto.
Qed.
Lemma nrm_triangle : forall s f g, nrm s (vadd f g) <= nrm s f + nrm s g.
Proof.
  intros. pose proof (nrm_pos s f); pose proof (nrm_pos s g). apply sq_le_le; [nra |].
  rewrite nrm_sq, rin_add_l, !rin_add_r, (rin_sym s g f).
  pose proof (rin_le_nrm s f g). pose proof (nrm_sq s f). pose proof (nrm_sq s g). nra.
Qed.
Lemma nrm_scal : forall s x f, nrm s (vscal x f) = Rabs x * nrm s f.
Proof.
  intros. unfold nrm. rewrite rin_scal_l, rin_scal_r.
  replace (x * (x * rin s f f)) with (x * x * rin s f f) by ring.
  rewrite sqrt_mult; [| nra | apply rin_pos]. f_equal. apply sqrt_Rsqr_abs.
Qed.

(** ** Curl: adjointness and norm *)
Lemma inner_sub_l : forall s f g h, inner s (fun i j k => f i j k - g i j k)%C h = (inner s f h - inner s g h)%C.
Proof. intros. unfold inner. rewrite <- grid_sum_sub. apply grid_sum_ext; intros; ring. Qed.
Lemma inner_sub_r : forall s f g h, inner s h (fun i j k => f i j k - g i j k)%C = (inner s h f - inner s h g)%C.
Proof. intros. unfold inner. rewrite <- grid_sum_sub. apply grid_sum_ext; intros. rewrite Cconj_sub; ring. Qed.
Lemma curl_adjoint : forall s h e f,
  vinner s (curl_fn (diff_fn s (uniform_dx h) false) e) f = vinner s e (curl_fn (diff_fn s (uniform_dx h) true) f).
Proof.
  intros. unfold vinner, curl_fn. rewrite !inner_sub_l, !inner_sub_r, !diff_adjoint. ring.
Qed.
Lemma curl_rin : forall g e f, rin (g_shape g) (curl_e g e) f = rin (g_shape g) e (curl_h g f).
Proof. intros. unfold rin, curl_e, curl_h, g_dx. rewrite curl_adjoint. reflexivity. Qed.

Lemma rgrid_sum_nxt : forall s a F, rgrid_sum s (fun i j k => match a with
  AX => F (nxt (s AX) i) j k | AY => F i (nxt (s AY) j) k | AZ => F i j (nxt (s AZ) k) end) = rgrid_sum s F.
Proof.
  intros s a F. pose proof (grid_sum_nxt s a (fun i j k => RtoC (F i j k))) as H.
  assert (E : forall G, rgrid_sum s G = re (grid_sum s (fun i j k => RtoC (G i j k)))) by (intro; rewrite re_grid_sum; reflexivity).
  rewrite !E, <- H. f_equal. apply grid_sum_ext; intros. destruct a; reflexivity.
Qed.
Lemma Cn2_sub_le : forall a b, Cn2 (a - b)%C <= 2 * Cn2 a + 2 * Cn2 b.
Proof. intros [x y] [u v]. unfold Cn2; cbn [re im Csub]. pose proof (Rle_0_sqr (x + u)) as H1. pose proof (Rle_0_sqr (y + v)) as H2. unfold Rsqr in H1, H2. lra. Qed.
Lemma Cn2_inv_R : forall x, Cn2 (Cinv (RtoC x)) = / (x * x).
Proof.
  intros. destruct (Req_EM_T x 0) as [E | E].
  - subst. unfold Cn2, Cinv, Cn2. cbn [re im RtoC]. unfold Rdiv. rewrite !Rmult_0_l, Rplus_0_l. rewrite Rinv_0. ring.
  - unfold Cn2, Cinv, Cn2. cbn [re im RtoC]. field. auto.
Qed.
Lemma diff_norm : forall g a f, wf_grid g ->
  sin_ (g_shape g) (diff_fn (g_shape g) (g_dx g) false f a) (diff_fn (g_shape g) (g_dx g) false f a) <=
  4 * inv_sq g a * sin_ (g_shape g) f f.
Proof.
  intros g a f (_ & Hp & Hs & Hi). rewrite !sin_self. unfold inv_sq.
  destruct (is_active g a) eqn:Ea.
  - assert (Hsp := Hs a Ea). set (x := g_spacing g a) in *.
    set (s := g_shape g).
    apply Rle_trans with (rgrid_sum s (fun i j k => / (x * x) * (2 * Cn2 (roll_m1 s a f i j k) + 2 * Cn2 (f i j k)))).
    + apply rgrid_sum_le; intros i j k _. unfold diff_fn, g_dx, uniform_dx, Cdiv. rewrite Ea. fold x.
      rewrite Cn2_mul, Cn2_inv_R. fold s. rewrite Rmult_comm. apply Rmult_le_compat_l; [| apply Cn2_sub_le].
      left. apply Rinv_0_lt_compat. apply Rmult_lt_0_compat; exact Hsp.
    + rewrite rgrid_sum_scal, rgrid_sum_add, !rgrid_sum_scal.
      assert (E : rgrid_sum s (fun i j k => Cn2 (roll_m1 s a f i j k)) = rgrid_sum s (fun i j k => Cn2 (f i j k))).
      { rewrite <- (rgrid_sum_nxt s a (fun i j k => Cn2 (f i j k))). apply rgrid_sum_ext; intros. destruct a; reflexivity. }
      rewrite E. right. ring.
  - rewrite Rmult_0_r, Rmult_0_l. right.
    assert (Hz : forall i j k, in_grid (g_shape g) i j k -> Cn2 (diff_fn (g_shape g) (g_dx g) false f a i j k) = 0).
    { intros i j k Hin. rewrite diff_fn_quot by auto. unfold fwd_quot. rewrite (Hi a Ea). simpl. apply Cn2_C0. }
    rewrite (rgrid_sum_ext _ _ (fun _ _ _ => 0 * 0)) by (intros; rewrite Hz; auto; ring).
    rewrite (rgrid_sum_scal (g_shape g) 0 (fun _ _ _ => 0)). ring.
Qed.

Lemma diff_norm_eq : forall s h f a, sin_ s (diff_fn s (uniform_dx h) true f a) (diff_fn s (uniform_dx h) true f a) =
  sin_ s (diff_fn s (uniform_dx h) false f a) (diff_fn s (uniform_dx h) false f a).
Proof.
  intros. rewrite !sin_self. rewrite <- (rgrid_sum_nxt s a (fun i j k => Cn2 (diff_fn s (uniform_dx h) true f a i j k))).
  apply rgrid_sum_ext; intros i j k (Hi & Hj & Hk).
  destruct a; unfold diff_fn, roll_p1, roll_m1, along, uniform_dx; rewrite prv_nxt by auto; reflexivity.
Qed.

(** The sum of all nine differences splits into curl and divergence parts. *)
Lemma sin_sub2 : forall s f g, sin_ s (fun i j k => f i j k - g i j k)%C (fun i j k => f i j k - g i j k)%C =
  sin_ s f f + sin_ s g g - 2 * sin_ s f g.
Proof.
  intros. unfold sin_. rewrite inner_sub_l, !inner_sub_r. cbn [re Csub].
  assert (E : re (inner s g f) = re (inner s f g)) by apply (sin_sym s g f). lra.
Qed.
Lemma sin_cross : forall s h f g a b, a <> b ->
  sin_ s (diff_fn s (uniform_dx h) false f a) (diff_fn s (uniform_dx h) false g b) =
  sin_ s (diff_fn s (uniform_dx h) true f b) (diff_fn s (uniform_dx h) true g a).
Proof.
  intros s h f g a b Hab. unfold sin_. rewrite diff_adjoint.
  assert (E : inner s f (diff_fn s (uniform_dx h) true (diff_fn s (uniform_dx h) false g b) a) =
              inner s f (diff_fn s (uniform_dx h) false (diff_fn s (uniform_dx h) true g a) b)).
  { unfold inner. apply grid_sum_ext; intros. rewrite (diff_commute s _ true false g a b) by auto. reflexivity. }
  rewrite E.
  assert (E2 : inner s f (diff_fn s (uniform_dx h) false (diff_fn s (uniform_dx h) true g a) b) =
     (- inner s (diff_fn s (uniform_dx h) true f b) (diff_fn s (uniform_dx h) true g a))%C).
  { assert (Hc : forall u v, inner s u v = Cconj (inner s v u)).
    { intros. unfold inner. rewrite grid_sum_conj. apply grid_sum_ext; intros. rewrite Cconj_mul, Cconj_conj. ring. }
    rewrite Hc, diff_adjoint, Cconj_opp, <- Hc. reflexivity. }
  rewrite E2. cbn [re Copp]. ring.
Qed.
Lemma sin_add3 : forall s f g h,
  sin_ s (fun i j k => f i j k + g i j k + h i j k)%C (fun i j k => f i j k + g i j k + h i j k)%C =
  sin_ s f f + sin_ s g g + sin_ s h h + 2 * sin_ s f g + 2 * sin_ s f h + 2 * sin_ s g h.
Proof.
  intros. rewrite (sin_add_l s (fun i j k => f i j k + g i j k)%C h), sin_add_l.
  rewrite !(sin_sym s _ (fun i j k => f i j k + g i j k + h i j k)%C).
  rewrite !(sin_add_l s (fun i j k => f i j k + g i j k)%C h), !sin_add_l.
  rewrite (sin_sym s g f), (sin_sym s h f), (sin_sym s h g). ring.
Qed.
Lemma curl_norm : forall g e, wf_grid g ->
  rin (g_shape g) (curl_e g e) (curl_e g e) <= 4 * (inv_sq g AX + inv_sq g AY + inv_sq g AZ) * rin (g_shape g) e e.
Proof.
  intros g e Hwf. set (s := g_shape g). set (D := fun f a => diff_fn s (g_dx g) false f a).
  pose proof (diff_norm g AX (e AX) Hwf) as N1. pose proof (diff_norm g AX (e AY) Hwf) as N2. pose proof (diff_norm g AX (e AZ) Hwf) as N3.
  pose proof (diff_norm g AY (e AX) Hwf) as N4. pose proof (diff_norm g AY (e AY) Hwf) as N5. pose proof (diff_norm g AY (e AZ) Hwf) as N6.
  pose proof (diff_norm g AZ (e AX) Hwf) as N7. pose proof (diff_norm g AZ (e AY) Hwf) as N8. pose proof (diff_norm g AZ (e AZ) Hwf) as N9.
  set (B := fun f a => diff_fn s (g_dx g) true f a).
  pose proof (sin_pos s (fun i j k => B (e AX) AX i j k + B (e AY) AY i j k + B (e AZ) AZ i j k)%C) as P. rewrite sin_add3 in P.
  assert (D1 : forall a, sin_ s (B (e a) a) (B (e a) a) = sin_ s (D (e a) a) (D (e a) a)).
  { intro a. unfold B, D. apply diff_norm_eq. }
  rewrite !D1 in P.
  assert (X1 : sin_ s (B (e AX) AX) (B (e AY) AY) = sin_ s (D (e AX) AY) (D (e AY) AX)).
  { symmetry. apply sin_cross. discriminate. }
  assert (X2 : sin_ s (B (e AX) AX) (B (e AZ) AZ) = sin_ s (D (e AX) AZ) (D (e AZ) AX)).
  { symmetry. apply sin_cross. discriminate. }
  assert (X3 : sin_ s (B (e AY) AY) (B (e AZ) AZ) = sin_ s (D (e AY) AZ) (D (e AZ) AY)).
  { symmetry. apply sin_cross. discriminate. }
  rewrite X1, X2, X3 in P.
  rewrite !rin_split. unfold curl_e, curl_fn. rewrite !sin_sub2.
  rewrite (sin_sym s (D (e AX) AY) (D (e AY) AX)) in P. rewrite (sin_sym s (D (e AY) AZ) (D (e AZ) AY)) in P.
  unfold D, B in *. fold s in N1, N2, N3, N4, N5, N6, N7, N8, N9. fold s. lra.
Qed.
