(** One step of FDTD in the layers (C152). *)
From Coq Require Import Reals ZArith Lra Lia List Arith Bool FunctionalExtensionality.
From Verif Require Import Cx Arr Model_yee Spec_yee Proof_yee Proof_yee2 Model_fdtd Spec_fdtd Proof_fdtd Proof_energy2 Model_fdfd Spec_fdfd Proof_scpml Proof_fdfd
  Model_fdtdpml Spec_fdtdpml Proof_fdtdpml Proof_fdtdpml2.
Import ListNotations.
Local Open Scope R_scope.

Lemma depth_is : forall (n t : nat) (o : bool) (h : R) (x : nat), 0 < h -> (0 < t)%nat -> (2 * t < n)%nat -> (x < n)%nat -> d_pml h n t (if o then pos_h h else pos_e h) x = depth n t o x.
Proof.
  intros n t o h x Hh Ht Hn Hx. unfold d_pml, depth.
  assert (T1 : 1 <= INR t) by (change 1 with (INR 1); apply le_INR; lia).
  destruct (Nat.ltb_spec x t) as [L | L].
  - rewrite (minus_INR t x) by lia. destruct o; unfold pos_h, pos_e, p_pos; rewrite ?plus_INR; cbn [INR]; field; nra.
  - destruct (Nat.ltb_spec x (n - t)) as [M | M]; destruct (Nat.leb_spec (n - t) x) as [M' | M']; try lia; [reflexivity |].
    rewrite (minus_INR x (n - t)), (minus_INR n t) by lia. destruct o; unfold pos_h, pos_e, p_pos; rewrite ?plus_INR, ?minus_INR by lia; cbn [INR].
    + field. nra.
    + field. split; [nra |]. nra.
Qed.
Lemma own_sigma : forall g p o a lo i j k, wf_grid g -> g_ndim g = 3%nat -> wf_pml g p -> in_grid (g_shape g) i j k ->
  sigma_ax g p o (a, lo) a i j k = layer_sigma g p o a (coord a i j k).
Proof.
  intros g p o a lo i j k W N P I. unfold sigma_ax. cbn [fst]. rewrite Nat.eqb_refl. rewrite sigma_form. unfold layer_sigma, s_max. f_equal. f_equal.
  unfold pml_pos. rewrite depth_is; auto; try apply P; [apply W; apply active3; auto | apply in_grid_coord; auto].
Qed.
Lemma own_coef : forall g p o a lo i j k, wf_grid g -> g_ndim g = 3%nat -> wf_pml g p -> in_grid (g_shape g) i j k ->
  cpml_b g p o (a, lo) a i j k = layer_b g p o a (coord a i j k) /\ cpml_c g p o (a, lo) a i j k = layer_c g p o a (coord a i j k).
Proof.
  intros g p o a lo i j k W N P I. unfold cpml_c, cpml_b. rewrite own_sigma by auto. unfold layer_c, layer_b, alpha.
  replace (- (/ 100000000 + layer_sigma g p o a (coord a i j k))) with (- (layer_sigma g p o a (coord a i j k) + / 100000000)) by ring. split; reflexivity.
Qed.
Lemma other_coef : forall g p o a lo b i j k, b <> a -> cpml_c g p o (a, lo) b i j k = 0.
Proof.
  intros g p o a lo b i j k H. unfold cpml_c, sigma_ax. cbn [fst]. destruct (Nat.eqb (axis_no b) (axis_no a)) eqn:E; [apply axis_eqb in E; contradiction |].
  unfold Rdiv. ring.
Qed.
Lemma fold_regions : forall g p v x c i j k, fold_left (region_add g p v) pml_regions x c i j k =
  (x c i j k + ((if in_region g p (AX, true) i j k then v (AX, true) c i j k else C0) + (if in_region g p (AX, false) i j k then v (AX, false) c i j k else C0)) +
    ((if in_region g p (AY, true) i j k then v (AY, true) c i j k else C0) + (if in_region g p (AY, false) i j k then v (AY, false) c i j k else C0)) +
    ((if in_region g p (AZ, true) i j k then v (AZ, true) c i j k else C0) + (if in_region g p (AZ, false) i j k then v (AZ, false) c i j k else C0)))%C.
Proof.
  intros. unfold pml_regions. cbn [fold_left]. unfold region_add.
  destruct (in_region g p (AX, true) i j k), (in_region g p (AX, false) i j k), (in_region g p (AY, true) i j k), (in_region g p (AY, false) i j k), (in_region g p (AZ, true) i j k), (in_region g p (AZ, false) i j k); ring.
Qed.
(** The two layers of an axis: at most one of them contains a cell; outside both the coefficient vanishes. *)
Lemma two_layers : forall g p o a i j k (v : region -> C) w, wf_pml g p -> absorbing p -> wf_grid g -> g_ndim g = 3%nat -> in_grid (g_shape g) i j k ->
  (forall lo, v (a, lo) = w) -> (layer_c g p o a (coord a i j k) = 0 -> w = C0) ->
  ((if in_region g p (a, true) i j k then v (a, true) else C0) + (if in_region g p (a, false) i j k then v (a, false) else C0))%C = w.
Proof.
  intros g p o a i j k v w P A W N I Hv Hz. rewrite !Hv. unfold in_region. cbn [fst snd]. destruct (P a) as [T0 T1]. pose proof (in_grid_coord _ _ _ _ a I) as X.
  destruct (Nat.ltb_spec (coord a i j k) (p_cells p a)) as [L | L]; destruct (Nat.leb_spec (g_shape g a - p_cells p a) (coord a i j k)) as [M | M]; try lia; try ring.
  rewrite Hz; [ring |]. rewrite <- (proj2 (own_coef g p o a true i j k W N P I)).
  apply (coef_shape g p o (a, true) a i j k W N P A I). right. lia.
Qed.
Lemma quot_is : forall g o a f i j k, g_ndim g = 3%nat -> in_grid (g_shape g) i j k -> diff_fn (g_shape g) (g_dx g) o f a i j k = yee_quot g o a f i j k.
Proof.
  intros g o a f i j k N I. rewrite <- quot_diff by auto. unfold yee_quot, quot. 
  assert (E : g_dx g = fun a _ => RtoC (g_spacing g a)).
  { unfold g_dx, uniform_dx. apply functional_extensionality. intro b. apply functional_extensionality. intro m. rewrite active3 by auto. reflexivity. }
  rewrite E. destruct o; reflexivity.
Qed.
(** The correction of one region, memories given by the previous field. *)
Definition extra (g : fgrid) (p : fpml) (o : bool) (now before : vfld) (a : axis) (c : axis) (i j k : nat) : C :=
  rot (fun a' b => if Nat.eqb (axis_no a') (axis_no a) then (damped g p o now before a' b i j k - yee_quot g o a' (now b) i j k)%C else C0) c.
Definition mem_of (g : fgrid) (p : fpml) (o : bool) (before : vfld) : mem := fun r => fst (curl_pml g p o r before (fun _ _ _ _ => C0)).
Lemma phi_is : forall g p o now before a lo c i j k, wf_grid g -> g_ndim g = 3%nat -> wf_pml g p -> in_grid (g_shape g) i j k ->
  phi g p o now (mem_of g p o before) (a, lo) c i j k = extra g p o now before a c i j k.
Proof.
  intros g p o now before a lo c i j k W N P I. unfold phi, mem_of, curl_pml, curl_pml_fn, pml_diff, pml_b, extra, damped. cbv zeta. cbn [fst snd].
  destruct (own_coef g p o a lo i j k W N P I) as [EB EC].
  destruct c; destruct a; cbv beta iota zeta; cbn [rot axis_no Nat.eqb]; rewrite !quot_is by auto; rewrite ?EB, ?EC, ?(other_coef g p o _ lo) by discriminate; rewrite ?RtoC_add, ?RtoC_mul; change (RtoC 1) with C1; change (RtoC 0) with C0; ring.
Qed.
Lemma extra_sum : forall g p o now before c i j k,
  (extra g p o now before AX c i j k + extra g p o now before AY c i j k + extra g p o now before AZ c i j k)%C =
  (rot (fun a b => damped g p o now before a b i j k) c - rot (fun a b => yee_quot g o a (now b) i j k) c)%C.
Proof. intros. unfold extra. destruct c; cbn [rot axis_no Nat.eqb]; ring. Qed.
Lemma extra_zero : forall g p o now before a c i j k, layer_c g p o a (coord a i j k) = 0 -> extra g p o now before a c i j k = C0.
Proof.
  intros g p o now before a c i j k H. unfold extra, damped. destruct a, c; cbn [rot axis_no Nat.eqb]; try rewrite H; rewrite ?Rmult_0_r, ?Rplus_0_r; change (RtoC 1) with C1; change (RtoC 0) with C0; ring.
Qed.
Lemma curl_is : forall g o f c i j k, g_ndim g = 3%nat -> in_grid (g_shape g) i j k -> curl_fn (diff_fn (g_shape g) (g_dx g) o) f c i j k = rot (fun a b => yee_quot g o a (f b) i j k) c.
Proof. intros g o f c i j k N I. unfold curl_fn. destruct c; rewrite !quot_is by auto; reflexivity. Qed.
Lemma scaled_layers : forall g p o now before m (v : region -> vfld) (s : C) x c i j k, wf_grid g -> g_ndim g = 3%nat -> wf_pml g p -> absorbing p -> in_grid (g_shape g) i j k ->
  (forall a lo n i j k, m (a, lo) n i j k = mem_of g p o before (a, lo) n i j k) ->
  (forall r, v r c i j k = (phi g p o now m r c i j k * s)%C) ->
  fold_left (region_add g p v) pml_regions x c i j k = (x c i j k + (rot (fun a b => damped g p o now before a b i j k) c - curl_fn (diff_fn (g_shape g) (g_dx g) o) now c i j k) * s)%C.
Proof.
  intros g p o now before m v s x c i j k W N P A I Hm Hv. rewrite fold_regions.
  assert (Em : m = mem_of g p o before) by (apply functional_extensionality; intros [a lo]; apply functional_extensionality; intro n; do 3 (apply functional_extensionality; intro); apply Hm).
  subst m. assert (T : forall a, ((if in_region g p (a, true) i j k then v (a, true) c i j k else C0) + (if in_region g p (a, false) i j k then v (a, false) c i j k else C0))%C = (extra g p o now before a c i j k * s)%C).
  { intro a. apply (two_layers g p o a i j k (fun r => v r c i j k)); auto.
    - intro lo. rewrite Hv, phi_is by auto. reflexivity.
    - intro Z. rewrite extra_zero by auto. ring. }
  rewrite !T, curl_is, <- extra_sum by auto. ring.
Qed.
Lemma layers_e : forall g jax p st before c i j k, wf_grid g -> g_ndim g = 3%nat -> wf_pml g p -> absorbing p -> in_grid (g_shape g) i j k ->
  (forall r n i j k, ps_psi_e st r n i j k = mem_of g p true before r n i j k) ->
  ps_e (pstep g jax p st []) c i j k = (ps_e st c i j k + RtoC (dt_of g) / RtoC (eps_t g jax c i j k) * rot (fun a b => damped g p true (ps_h st) before a b i j k) c)%C.
Proof.
  intros g jax p st before c i j k W N P A I Hm. unfold pstep. cbn [ps_e]. unfold pstep_e. cbn [fold_left].
  rewrite (scaled_layers g p true (ps_h st) before (ps_psi_e st) _ (RtoC (dt_of g) / RtoC (eps_t g jax c i j k))%C) by (auto; intro r; unfold Cdiv; ring).
  unfold curl_h, Cdiv. ring.
Qed.
Lemma layers_h : forall g jax p st before c i j k, wf_grid g -> g_ndim g = 3%nat -> wf_pml g p -> absorbing p -> in_grid (g_shape g) i j k ->
  (forall r n i j k, ps_psi_h st r n i j k = mem_of g p false before r n i j k) ->
  let st' := pstep g jax p st [] in
  ps_h st' c i j k = (ps_h st c i j k - RtoC (dt_of g) * rot (fun a b => damped g p false (ps_e st') before a b i j k) c)%C.
Proof.
  intros g jax p st before c i j k W N P A I Hm st'. unfold st' at 1, pstep. cbn [ps_h]. change (pstep_e g jax p st []) with (ps_e st'). unfold pstep_h. cbn [fold_left].
  rewrite (scaled_layers g p false (ps_e st') before (ps_psi_h st) _ (- RtoC (dt_of g))%C) by (auto; intro r; ring).
  unfold curl_e. ring.
Qed.
Lemma mem_after : forall g p o f m r n i j k, new_mem g p o f m r n i j k = mem_of g p o f r n i j k.
Proof. intros. unfold new_mem, mem_of, curl_pml, curl_pml_fn. reflexivity. Qed.
Lemma mem_zero : forall g p o r n i j k, zero_mem r n i j k = mem_of g p o zero_vfld r n i j k.
Proof.
  intros. unfold zero_mem, mem_of, curl_pml, curl_pml_fn, pml_diff. cbn [fst].
  assert (D : forall a, diff_fn (g_shape g) (g_dx g) o (fun _ _ _ => C0) a i j k = C0) by (intro; apply diff_const).
  unfold zero_vfld. do 6 (destruct n as [| n]; [rewrite D; ring |]). rewrite D; ring.
Qed.
Lemma layer_step : forall g jax p st srcs c i j k, wf_grid g -> g_ndim g = 3%nat -> wf_pml g p -> absorbing p -> in_grid (g_shape g) i j k ->
  let st1 := pstep g jax p st srcs in let st2 := pstep g jax p st1 [] in
  ps_e st2 c i j k = (ps_e st1 c i j k + RtoC (dt_of g) / RtoC (eps_t g jax c i j k) * rot (fun a b => damped g p true (ps_h st1) (ps_h st) a b i j k) c)%C /\
  ps_h st2 c i j k = (ps_h st1 c i j k - RtoC (dt_of g) * rot (fun a b => damped g p false (ps_e st2) (ps_e st1) a b i j k) c)%C.
Proof.
  intros g jax p st srcs c i j k W N P A I st1 st2. split.
  - apply layers_e; auto; intros; apply mem_after.
  - apply layers_h; auto; intros; apply mem_after.
Qed.
Lemma layer_first : forall g jax p e h c i j k, wf_grid g -> g_ndim g = 3%nat -> wf_pml g p -> absorbing p -> in_grid (g_shape g) i j k ->
  let st := mkPstate e h zero_mem zero_mem in let st1 := pstep g jax p st [] in
  ps_e st1 c i j k = (e c i j k + RtoC (dt_of g) / RtoC (eps_t g jax c i j k) * rot (fun a b => RtoC (1 + layer_c g p true a (coord a i j k)) * yee_quot g true a (h b) i j k) c)%C /\
  ps_h st1 c i j k = (h c i j k - RtoC (dt_of g) * rot (fun a b => RtoC (1 + layer_c g p false a (coord a i j k)) * yee_quot g false a (ps_e st1 b) i j k) c)%C.
Proof.
  intros g jax p e h c i j k W N P A I st st1.
  assert (Z : forall o f a b, damped g p o f zero_vfld a b i j k = (RtoC (1 + layer_c g p o a (coord a i j k)) * yee_quot g o a (f b) i j k)%C).
  { intros o f a b. unfold damped. rewrite <- (quot_is g o a (zero_vfld b)) by auto. change (zero_vfld b) with (fun _ _ _ : nat => C0). rewrite diff_const. ring. }
  split.
  - unfold st1. rewrite (layers_e g jax p st zero_vfld) by (auto; intros; apply mem_zero). cbn [ps_e ps_h st]. destruct c; cbn [rot]; rewrite !Z; reflexivity.
  - unfold st1 at 1. rewrite (layers_h g jax p st zero_vfld) by (auto; intros; apply mem_zero). fold st1. cbn [ps_h st]. destruct c; cbn [rot]; rewrite !Z; reflexivity.
Qed.
