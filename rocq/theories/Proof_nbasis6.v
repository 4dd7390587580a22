(** Programming by null vectors with the guard np.spacing(1) kept (C84, C85). *)
From Coq Require Import Reals Lra Lia Psatz List ZArith Permutation Bool FunctionalExtensionality.
From Verif Require Import Cx Arr Spec_circuit Model_coupling Model_forward Model_null Spec_mesh Spec_null
  Proof_node Proof_mesh Proof_forward Proof_forward2 Proof_forward3 Proof_forward4 Proof_vector Proof_vector2 Proof_null
  Proof_nbasis Proof_nbasis2 Proof_nbasis3 Proof_nbasis4 Proof_vunit3.
Import ListNotations.
Local Open Scope R_scope.

Definition trace (eps : R) (m : mesh) (ws : list vec) (c0 : nat) (p : params) : Prop :=
  forall c w, (c < c0)%nat -> nth_error ws c = Some w -> forall t b k, In (t, b, k) (col_idx m c) ->
    let v := cols_run (mzis m false p) (firstn c (all_idx m)) w in
    exists phi, nullify_phi (style m) (mzi_terms (err_at m k)) (nullify_theta eps (mzi_terms (err_at m k)) (v t) (v b)) (v t) (v b) = Some phi /\
      thetas p k = nullify_theta eps (mzi_terms (err_at m k)) (v t) (v b) /\ phis p k = mod2pi phi.
Lemma program_trace : forall eps m p0 ws, wf_mesh m -> style m <> SYMMETRIC -> length ws = Z.to_nat (num_columns m) ->
  exists p, program_by_null_basis eps m p0 ws = Some p /\ gammas p = gammas p0 /\ trace eps m ws (Z.to_nat (num_columns m)) p.
Proof.
  intros eps m p0 ws Hw Hs Hl. destruct (wf_all m Hw) as (cols & E1 & E2 & E3 & E4 & E5 & E6 & E7).
  unfold program_by_null_basis. rewrite E1. cbn [obind].
  destruct (null_loop eps m (fun c p => gammas p = gammas p0 /\ trace eps m ws c p) cols ws) with (p0 := p0) as (p & P1 & P2 & P3).
  - intros c p nc w Hn Hw' (Ig & It).
    assert (Hc : (c < Z.to_nat (num_columns m))%nat) by (rewrite <- E2; apply nth_error_Some; congruence).
    destruct (null_step_run eps m p c nc w Hw Hs Hc) as (p' & S1 & S2 & S3 & S4); [exists cols; auto |].
    assert (Old : forall c1, (c1 <= c)%nat -> forall v, cols_run (mzis m false p') (firstn c1 (all_idx m)) v = cols_run (mzis m false p) (firstn c1 (all_idx m)) v).
    { intros c1 Hc1. apply cols_el_ext; [apply Forall_firstn'; exact E6 |]. intros i t b k Hi Hin. apply in_firstn_idx in Hi. destruct Hi as (c' & Hc' & ->).
      unfold mzis. destruct (S3 k) as [-> ->]; [| reflexivity]. intros t' b' K. destruct (id_column m c c' t' b' t b k E7 K Hin) as (Ec & _). lia. }
    exists p'. split; [exact S1 |]. split; [congruence |]. intros c1 w1 Hc1 Hw1 t b k Hin. cbv zeta. rewrite Old by lia.
    destruct (Nat.eq_dec c1 c) as [-> | Hne].
    + assert (w1 = w) by congruence. subst w1. exact (S4 t b k Hin).
    + destruct (S3 k) as [-> ->].
      * intros t' b' K. destruct (id_column m c c1 t' b' t b k E7 K Hin) as (Ec & _). lia.
      * apply (It c1 w1); auto; lia.
  - lia.
  - split; [reflexivity |]. intros c w Hc. lia.
  - exists p. split; [exact P1 |]. split; [exact P2 |]. rewrite <- E2. exact P3.
Qed.
Lemma dt_reach : forall eps t b x, 0 <= eps -> Cn2 t <= x * (Cn2 t + Cn2 b + eps) -> 0 <= x -> direct_transmissivity_eps eps t b <= x.
Proof.
  intros eps t b x He H Hx. unfold direct_transmissivity_eps. pose proof (Cn2_nonneg t). pose proof (Cn2_nonneg b).
  destruct (Req_dec (Cn2 t + Cn2 b + eps) 0) as [Ez | Ez].
  - replace (Cn2 t) with 0 by lra. unfold Rdiv. rewrite Rmult_0_l. exact Hx.
  - apply (Rmult_le_reg_r (Cn2 t + Cn2 b + eps)); [lra |]. unfold Rdiv. rewrite Rmult_assoc, Rinv_l by auto. lra.
Qed.
(** Every column is nulled up to the guard. *)
Lemma residual : forall eps m p0 ws, 0 <= eps -> wf_mesh m -> lossless m -> equal_errors m -> style m = TOP \/ style m = BOTTOM ->
  Forall (fun e => - (PI/4) < fst e < PI/4) (bs_errors m) -> length ws = Z.to_nat (num_columns m) ->
  exists p, program_by_null_basis eps m p0 ws = Some p /\ gammas p = gammas p0 /\
    forall c w, nth_error ws c = Some w -> exists sl0 sl, propagate_cut m false false (Some (Z.of_nat c)) p w = Some sl0 /\
      propagate_cut m false false (Some (Z.of_nat (c + 1))) p w = Some sl /\
      forall nd, In nd (nodes m) -> column nd = Z.of_nat c ->
        let t := last sl0 w (top nd) in let b := last sl0 w (bottom nd) in
        Cn2 t <= cos (2 * fst (err_at m (node_id nd))) ^ 2 * (Cn2 t + Cn2 b + eps) ->
        Cn2 (last sl w (top nd)) <= eps /\ Cn2 (last sl w (top nd)) + Cn2 (last sl w (bottom nd)) = Cn2 t + Cn2 b.
Proof.
  intros eps m p0 ws Heps Hw Hl He Hst Small Hlen.
  destruct (program_trace eps m p0 ws Hw) as (p & P1 & P2 & P3); [destruct Hst as [-> | ->]; discriminate | exact Hlen |].
  exists p. split; [exact P1 |]. split; [exact P2 |]. intros c w Hn.
  assert (Hc : (c < Z.to_nat (num_columns m))%nat) by (rewrite <- Hlen; apply nth_error_Some; congruence).
  destruct (cut_fwd_run m p c w Hw Hc) as (sl0 & A1 & A2).
  assert (B : exists sl, propagate_cut m false false (Some (Z.of_nat (c + 1))) p w = Some sl /\ forall i, Cn2 (last sl w i) = Cn2 (cols_run (mzis m false p) (firstn (S c) (all_idx m)) w i)).
  { destruct (Nat.eq_dec (S c) (Z.to_nat (num_columns m))) as [E | E].
    - destruct (cut_fwd_full m p w Hw) as (sl & S1 & S2); [lia |]. exists sl. split; [replace (Z.of_nat (c + 1)) with (num_columns m) by lia; exact S1 |].
      rewrite S2. assert (Ef : firstn (S c) (all_idx m) = all_idx m) by (apply firstn_all2; rewrite all_idx_len; lia). rewrite Ef.
      intro i. unfold apply_gammas. rewrite Cn2_mul, Cn2_cis. ring.
    - destruct (cut_fwd_run m p (S c) w Hw) as (sl & S1 & S2); [lia |]. exists sl. split; [rewrite Nat.add_1_r; exact S1 |]. rewrite S2. reflexivity. }
  destruct B as (sl & B1 & B2). exists sl0, sl. split; [exact A1 |]. split; [exact B1 |].
  intros nd Hin Hcol. cbv zeta. rewrite A2. set (v := cols_run (mzis m false p) (firstn c (all_idx m)) w). intro Hr. rewrite !B2.
  destruct (wf_all m Hw) as (cols & E1 & E2 & E3 & E4 & E5 & E6 & E7).
  assert (Hidx : In (top nd, bottom nd, node_id nd) (col_idx m c)) by (apply in_col_idx; exists nd; auto).
  assert (Hnd : NoDup (rails (col_idx m c))) by (rewrite Forall_forall in E6; apply E6; unfold all_idx; apply in_map; apply in_seq; lia).
  rewrite firstn_S_idx, cols_run_app by exact Hc. fold v. cbn [cols_run fold_left].
  rewrite (pt_top (mzis m false p) _ v _ _ _ Hnd Hidx), (pt_bot (mzis m false p) _ v _ _ _ Hnd Hidx).
  split; [| apply quad_unit_power; apply mzis_unit; exact Hl].
  destruct (P3 c w Hc Hn _ _ _ Hidx) as (phi & Q1 & Q2 & Q3). fold v in Q1, Q2.
  set (k := node_id nd) in *. pose proof (small_at m Small k) as Hsm. pose proof (err_pair m He k) as Hep. set (e := fst (err_at m k)) in *. rewrite Hep in Q1, Q2.
  assert (Hd : direct_transmissivity_eps eps (v (top nd)) (v (bottom nd)) <= (2 * (cos (PI / 4 + e) * sin (PI / 4 + e))) ^ 2).
  { rewrite reach_e. apply dt_reach; [exact Heps | exact Hr | apply pow2_ge_0]. }
  unfold mzis. rewrite Q2, Q3, (loss_at_zero m Hl), Hep.
  destruct Hst as [Es | Es]; rewrite Es in Q1 |- *; [apply (null_top eps e) | apply (null_bottom eps e)]; auto.
Qed.
(** In the first column the guard lowers every split ratio by 1 + eps. *)
Lemma guard_first : forall eps mh mt pt p0, 0 <= eps -> wf_mesh mh -> wf_mesh mt -> same_wiring mh mt ->
  lossless mh -> lossless mt -> equal_errors mh -> equal_errors mt ->
  (style mh = TOP \/ style mh = BOTTOM) -> style mt <> DIFFERENTIAL ->
  Forall (fun e => - (PI/4) < fst e < PI/4) (bs_errors mh) ->
  exists ws p, nullification_basis mt pt = Some ws /\ program_by_null_basis eps mh p0 ws = Some p /\ gammas p = gammas p0 /\
    forall nd, In nd (nodes mh) -> column nd = 0%Z -> (0 < num_columns mh)%Z ->
      crossing mt pt (node_id nd) <= (2 * (cos (PI/4 + fst (err_at mh (node_id nd))) * sin (PI/4 + fst (err_at mh (node_id nd))))) ^ 2 ->
      crossing mh p (node_id nd) = crossing mt pt (node_id nd) / (1 + eps).
Proof.
  intros eps mh mt pt p0 Heps Wh Wt SW Lh Lt Eh Et Sh St Small. destruct (wiring_idx mh mt SW) as (W1 & W2 & W3).
  exists (map (null_vec mt pt) (seq 0 (Z.to_nat (num_columns mt)))).
  destruct (program_trace eps mh p0 (map (null_vec mt pt) (seq 0 (Z.to_nat (num_columns mt)))) Wh) as (p & P1 & P2 & P3);
    [destruct Sh as [-> | ->]; discriminate | rewrite map_length, seq_length, W3; reflexivity |].
  exists p. split; [apply basis_is; exact Wt |]. split; [exact P1 |]. split; [exact P2 |]. intros nd Hin Hcol Hnc Hr.
  assert (Hidx : In (top nd, bottom nd, node_id nd) (col_idx mh 0)) by (apply in_col_idx; exists nd; auto).
  assert (Hpos : (0 < Z.to_nat (num_columns mh))%nat).
  { lia. }
  assert (Hn : nth_error (map (null_vec mt pt) (seq 0 (Z.to_nat (num_columns mt)))) 0 = Some (null_vec mt pt 0)).
  { rewrite <- W3. destruct (Z.to_nat (num_columns mh)); [lia | reflexivity]. }
  destruct (P3 0%nat _ Hpos Hn _ _ _ Hidx) as (phi & Q1 & Q2 & Q3). cbn [firstn cols_run fold_left] in Q1, Q2.
  rewrite W1 in Hidx. assert (Hpt : (0 < Z.to_nat (num_columns mt))%nat) by (rewrite <- W3; exact Hpos).
  destruct (null_vec_enter mt pt 0 _ _ _ Wt Lt Et St Hpt Hidx) as (U1 & U2). cbn [firstn cols_run fold_left] in U1, U2.
  set (k := node_id nd) in *. set (u := null_vec mt pt 0) in *.
  destruct (unit_conj12 (mzis mt false pt k) (u (top nd)) (u (bottom nd))) as [X1 X2]; [apply mzis_unit; exact Lt | exact U1 | exact U2 |].
  pose proof (unit_12 (mzis mt false pt k) (mzis_unit mt false pt k Lt)) as H12.
  assert (Es : direct_transmissivity_eps eps (u (top nd)) (u (bottom nd)) = crossing mt pt k / (1 + eps)).
  { unfold direct_transmissivity_eps. rewrite X1, X2, !Cn2_conj', H12. reflexivity. }
  assert (Hc0 : 0 <= crossing mt pt k) by apply Cn2_nonneg.
  assert (Hq : 0 <= crossing mt pt k / (1 + eps) <= crossing mt pt k).
  { assert (I1 : 0 < / (1 + eps) <= 1). { split; [apply Rinv_0_lt_compat; lra |]. rewrite <- Rinv_1 at 2. apply Rinv_le_contravar; lra. }
    unfold Rdiv. split; [apply Rmult_le_pos; lra |]. rewrite <- (Rmult_1_r (crossing mt pt k)) at 2. apply Rmult_le_compat_l; lra. }
  pose proof (small_at mh Small k) as Hsm. pose proof (err_pair mh Eh k) as Hep. set (e := fst (err_at mh k)) in *.
  unfold crossing at 1, mzis. rewrite Q2, (loss_at_zero mh Lh), Hep. unfold nullify_theta. rewrite Es.
  pose proof (ttp_mzi_exact (crossing mt pt k / (1 + eps)) (style mh) false (phis p k) (e, e) Hsm Hsm) as T. unfold mzi_terms in T |- *. cbn [fst snd] in T |- *. apply T.
  split; [apply Rle_trans with 0; [right; ring | lra] |]. apply Rle_trans with (1 := proj2 Hq). apply Rle_trans with (1 := Hr). right. ring.
Qed.

Lemma mesh1_half : forall s, crossing (mesh1 s (0, 0) (0, 0)) (mkParams (fun _ => PI / 2) (fun _ => 1) (fun _ => 0)) 0 = 1 / 2.
Proof.
  intro s. unfold crossing, mzis, err_at, loss_at. cbn [mesh1 bs_errors losses nth style thetas phis fst]. rewrite cross_eq, cos_PI2, !Rplus_0_r, cos_PI4, sin_PI4.
  assert (E2 : 1 / sqrt 2 * (1 / sqrt 2) = 1 / 2).
  { pose proof (sqrt_sqrt 2 ltac:(lra)) as K. assert (sqrt 2 <> 0) by (apply sqrt2_neq_0). field_simplify_eq; [lra | assumption]. }
  rewrite E2. lra.
Qed.
(** With the guard, not even an ideal single node is programmed to its own setting. *)
Lemma guard_refuted : forall eps p0, 0 < eps ->
  exists m pt ws p, wf_mesh m /\ lossless m /\ equal_errors m /\ style m = TOP /\ Forall (fun e => - (PI/4) < fst e < PI/4) (bs_errors m) /\
    (forall nd, In nd (nodes m) -> crossing m pt (node_id nd) <= (2 * (cos (PI/4 + fst (err_at m (node_id nd))) * sin (PI/4 + fst (err_at m (node_id nd))))) ^ 2) /\
    (forall nd, In nd (nodes m) -> 0 < thetas pt (node_id nd) < PI /\ 0 <= phis pt (node_id nd) < 2 * PI) /\
    nullification_basis m pt = Some ws /\ program_by_null_basis eps m p0 ws = Some p /\
    (forall g, exists x, matrix_fn m false (mkParams (thetas p) (phis p) g) x <> matrix_fn m false pt x) /\
    exists nd, In nd (nodes m) /\ thetas p (node_id nd) <> thetas pt (node_id nd).
Proof.
  intros eps p0 Heps. set (m := mesh1 TOP (0, 0) (0, 0)). set (pt := mkParams (fun _ => PI / 2) (fun _ => 1) (fun _ => 0)).
  pose proof (mesh1_wf TOP (0, 0) (0, 0)) as Hw. fold m in Hw. pose proof PI_RGT_0 as HPI.
  assert (Hl : lossless m) by (repeat constructor). assert (He : equal_errors m) by (repeat constructor).
  assert (Hs : Forall (fun e => - (PI/4) < fst e < PI/4) (bs_errors m)) by (repeat constructor; cbn; lra).
  pose proof (mesh1_half TOP) as Hh. fold m pt in Hh.
  assert (Hre : (2 * (cos (PI/4 + fst (err_at m 0)) * sin (PI/4 + fst (err_at m 0)))) ^ 2 = 1).
  { unfold err_at. cbn [m mesh1 bs_errors nth fst]. rewrite reach_e. rewrite Rmult_0_r, cos_0. ring. }
  destruct (guard_first eps m m pt p0 (Rlt_le _ _ Heps) Hw Hw) as (ws & p & B1 & B2 & _ & B3); auto; [repeat split | discriminate |].
  specialize (B3 (node1 (0, 0) (0, 0)) (or_introl eq_refl) eq_refl eq_refl). change (node_id (node1 (0, 0) (0, 0))) with 0%nat in B3.
  rewrite Hre, Hh in B3. specialize (B3 ltac:(lra)).
  assert (Hne : crossing m p 0 <> crossing m pt 0).
  { rewrite B3, Hh. intro E. apply (Rmult_eq_compat_r (1 + eps)) in E. unfold Rdiv in E. rewrite Rmult_assoc, Rinv_l in E by lra. lra. }
  exists m, pt, ws, p. split; [exact Hw |]. split; [exact Hl |]. split; [exact He |]. split; [reflexivity |]. split; [exact Hs |].
  split; [intros nd [<- | []]; change (node_id (node1 (0, 0) (0, 0))) with 0%nat; rewrite Hre, Hh; lra |].
  split; [intros nd [<- | []]; cbn [pt thetas phis]; pose proof PI2_1; lra |]. split; [exact B1 |]. split; [exact B2 |]. split.
  - intro g. exists (fun i => if Nat.eqb i 0 then C1 else C0). unfold m. rewrite !mesh1_fn. cbn [gammas thetas phis pt]. intro E. apply Some_inj in E.
    apply (f_equal (fun y => Cn2 (y 1%nat))) in E. unfold apply_gammas, apply_op, upd in E. cbn [Nat.eqb] in E. rewrite !Cn2_mul, !Cn2_cis, !Rmult_1_l in E.
    apply Hne. unfold crossing, mzis, err_at, loss_at. cbn [m mesh1 bs_errors losses nth style thetas phis pt].
    unfold qbot in E. match type of E with Cn2 (?a * C1 + ?b * C0)%C = Cn2 (?c * C1 + ?d * C0)%C =>
      replace (a * C1 + b * C0)%C with a in E by ring; replace (c * C1 + d * C0)%C with c in E by ring end. exact E.
  - exists (node1 (0, 0) (0, 0)). split; [left; reflexivity |]. change (node_id (node1 (0, 0) (0, 0))) with 0%nat. intro E. apply Hne.
    unfold crossing, mzis, err_at, loss_at. cbn [m mesh1 bs_errors losses nth style]. rewrite !cross_eq. rewrite E. reflexivity.
Qed.

Lemma guard_refuted85 : forall eps p0, 0 < eps ->
  exists m pt ws p, wf_mesh m /\ lossless m /\ equal_errors m /\ style m = TOP /\ Forall (fun e => - (PI/4) < fst e < PI/4) (bs_errors m) /\
    (forall nd, In nd (nodes m) -> 0 < thetas pt (node_id nd) < PI /\ 0 <= phis pt (node_id nd) < 2 * PI) /\
    nullification_basis m pt = Some ws /\ program_by_null_basis eps m p0 ws = Some p /\
    exists nd, In nd (nodes m) /\ thetas p (node_id nd) <> thetas pt (node_id nd).
Proof.
  intros eps p0 H. destruct (guard_refuted eps p0 H) as (m & pt & ws & p & A1 & A2 & A3 & A4 & A5 & A6 & A7 & A8 & A9 & A10 & A11).
  exists m, pt, ws, p. repeat (split; [assumption |]). exact A11.
Qed.
