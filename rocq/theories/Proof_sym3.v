(** The mirror along z, and the unit of length. *)
From Coq Require Import Reals Lra Lia List Arith Bool FunctionalExtensionality.
From Verif Require Import Cx Arr Model_yee Spec_yee Proof_yee Proof_yee2 Model_fdtd Spec_fdtd Proof_fdtd Spec_sym Proof_sym Proof_sym2 Proof_energy Proof_energy2.
Import ListNotations.
Local Open Scope R_scope.

Lemma mirror_run : forall g a jax sch st, positive_shape (g_shape g) -> a <> AZ -> Forall electric sch ->
  run (mirror_grid a g) jax (mirror_state (g_shape g) a st) (map (map (mirror_current (g_shape g) a)) sch) =
  mirror_state (g_shape g) a (run g jax st sch).
Proof. intros. apply mirror_run_gen; auto. Qed.
Lemma mirror_run_z : forall g jax sch st, positive_shape (g_shape g) -> (forall i j k k', g_eps g i j k = g_eps g i j k') -> Forall electric sch ->
  run (mirror_grid AZ g) jax (mirror_state (g_shape g) AZ st) (map (map (mirror_current (g_shape g) AZ)) sch) =
  mirror_state (g_shape g) AZ (run g jax st sch).
Proof. intros. apply mirror_run_gen; auto. Qed.

(** Two layers along z. *)
Definition zs : shape3 := fun a => match a with AZ => 2%nat | _ => 1%nat end.
Definition zg : fgrid := mkGrid zs 3 (fun _ => 1) (fun i j k => if Nat.eqb k 0 then 1 else 2).
Definition zst : fstate := mkState zero_vfld (fun c i j k => match c with AY => if Nat.eqb k 0 then C1 else C0 | _ => C0 end).
Lemma zg_wf : wf_grid zg.
Proof.
  split; [cbn; lia |]. split; [intro a; destruct a; cbn; lia |].
  split; intros a; [cbn; lra |]. destruct a; cbn; discriminate.
Qed.
Lemma dt_zg_pos : 0 < dt_of zg.
Proof.
  unfold dt_of, inv_sq, zg, is_active. cbn. apply Rdiv_lt_0_compat; [lra |]. apply sqrt_lt_R0. lra.
Qed.
Lemma zx_val : forall g' h, g_shape g' = zs -> g_ndim g' = 3%nat -> g_spacing g' = (fun _ => 1) -> (forall i j k, h AZ i j k = C0) ->
  re (f_e (step g' false (mkState zero_vfld h) []) AX 0%nat 0%nat 0%nat) =
  re (h AY 0%nat 0%nat 1%nat - h AY 0%nat 0%nat 0%nat)%C / g_eps g' 0%nat 0%nat 0%nat * dt_of g'.
Proof.
  intros g' h H1 H2 H3 Hz. rewrite step_e_val. cbn [f_e f_h current].
  assert (Ee : eps_t g' false AX 0%nat 0%nat 0%nat = g_eps g' 0%nat 0%nat 0%nat).
  { unfold eps_t, yee_avg, avg_axis, ralong, prv. rewrite H1. cbn [zs]. change ((0 + 1 - 1) mod 1)%nat with 0%nat. lra. }
  assert (Ec : curl_h g' h AX 0%nat 0%nat 0%nat = (h AY 0%nat 0%nat 1%nat - h AY 0%nat 0%nat 0%nat)%C).
  { unfold curl_h, curl_fn, diff_fn, g_dx, uniform_dx, is_active, roll_p1, along, prv, coord. rewrite H1, H2, H3. cbn [zs axis_no Nat.ltb Nat.leb].
    change ((0 + 2 - 1) mod 2)%nat with 1%nat. rewrite !Hz. apply C_eq; unfold Cdiv, Cinv, Cn2; cbn [re im RtoC Csub Cmul Cadd Copp C0]; field. }
  rewrite Ee, Ec. unfold zero_vfld, Cdiv. set (d := (h AY 0%nat 0%nat 1%nat - h AY 0%nat 0%nat 0%nat)%C). set (x := g_eps g' 0%nat 0%nat 0%nat).
  destruct (Req_dec x 0) as [E0 | E0].
  - rewrite E0. unfold Cinv, Cn2, Rdiv. cbn [re im RtoC Csub Cmul Cadd Copp C0]. replace (0 * 0 + 0 * 0) with 0 by ring. unfold Rdiv. rewrite Rinv_0. ring.
  - rewrite <- RtoC_inv by auto. cbn [re im RtoC Csub Cmul Cadd Copp C0]. field. auto.
Qed.
Lemma mirror_z_bad : forall jax, free_run (mirror_grid AZ zg) jax (mirror_state zs AZ zst) 1 <> mirror_state zs AZ (free_run zg jax zst 1).
Proof.
  assert (N : free_run (mirror_grid AZ zg) false (mirror_state zs AZ zst) 1 <> mirror_state zs AZ (free_run zg false zst 1)).
  { intro H. apply (f_equal (fun st => re (f_e st AX 0%nat 0%nat 0%nat))) in H. cbv beta in H.
    change (free_run zg false zst 1) with (step zg false zst []) in H.
    change (free_run (mirror_grid AZ zg) false (mirror_state zs AZ zst) 1) with (step (mirror_grid AZ zg) false (mirror_state zs AZ zst) []) in H.
    assert (M : mirror_state zs AZ zst = mkState zero_vfld (mirror_h zs AZ (f_h zst))).
    { unfold mirror_state. f_equal. apply same_eq. intros c i j k. unfold mirror_e, through, pick. destruct c; cbn [axis_eqb zst f_e]; unfold zero_vfld; ring. }
    rewrite M in H. rewrite zx_val in H; try reflexivity.
    unfold mirror_state at 1 in H. cbn [f_e] in H. unfold mirror_e, through, pick in H. cbn [axis_eqb coord] in H.
    change (edge_image (zs AZ) 0) with 0%nat in H.
    change zst with (mkState zero_vfld (f_h zst)) in H at 3. rewrite zx_val in H; try reflexivity.
    change (dt_of (mirror_grid AZ zg)) with (dt_of zg) in H. pose proof dt_zg_pos as P. set (t := dt_of zg) in *.
    unfold mirror_h, through, pick in H. cbn [axis_eqb coord] in H.
    change (centre_image (zs AZ) 0) with 1%nat in H. change (centre_image (zs AZ) 1) with 0%nat in H.
    cbn [zst f_h Nat.eqb] in H. unfold mirror_grid, through, pick in H. cbn [g_eps g_shape zg coord] in H.
    change (centre_image (zs AZ) 0) with 1%nat in H. cbn [Nat.eqb re im Copp Csub Cadd C1 C0] in H. lra. }
  intros [|]; [| exact N]. intro H. rewrite !free_run_jax in H. exact (N H).
Qed.
Lemma mirror_z_refuted : exists g st, wf_grid g /\ (forall i j k, 1 <= g_eps g i j k) /\
  forall jax, free_run (mirror_grid AZ g) jax (mirror_state (g_shape g) AZ st) 1 <> mirror_state (g_shape g) AZ (free_run g jax st 1).
Proof.
  exists zg, zst. split; [exact zg_wf |]. split; [| exact mirror_z_bad]. intros i j k. cbn [zg g_eps]. destruct (Nat.eqb k 0); lra.
Qed.

(** ** The unit of length *)
Definition eqs (s : shape3) (f h : vfld) : Prop := forall c i j k, in_grid s i j k -> f c i j k = h c i j k.
Section Unit.
Variables (g : fgrid) (u : R).
Hypothesis Hw : wf_grid g.
Hypothesis Hu : 0 < u.
Let s := g_shape g.
Let g' := scaled_grid u g.
Lemma inv_sq_scaled : forall a, inv_sq g' a = / (u * u) * inv_sq g a.
Proof.
  intro a. unfold inv_sq, g', scaled_grid. change (is_active (mkGrid (g_shape g) (g_ndim g) (fun a => u * g_spacing g a) (g_eps g)) a) with (is_active g a).
  cbn [g_spacing]. destruct (is_active g a) eqn:E; [| ring]. destruct Hw as (_ & _ & Hp & _). pose proof (Hp a E). field. split; lra.
Qed.
Lemma dt_scaled : dt_of g' = u * dt_of g.
Proof.
  unfold dt_of. rewrite !inv_sq_scaled. pose proof (inv_sum_pos g Hw) as P.
  replace (/ (u * u) * inv_sq g AX + / (u * u) * inv_sq g AY + / (u * u) * inv_sq g AZ) with (/ (u * u) * (inv_sq g AX + inv_sq g AY + inv_sq g AZ)) by ring.
  set (q := inv_sq g AX + inv_sq g AY + inv_sq g AZ) in *. rewrite sqrt_mult_alt by (left; apply Rinv_0_lt_compat; nra).
  assert (E : sqrt (/ (u * u)) = / u). { rewrite Rinv_mult. apply sqrt_square. left. apply Rinv_0_lt_compat. lra. }
  rewrite E. pose proof (sqrt_lt_R0 q P). field. split; lra.
Qed.
Lemma diff_scaled : forall o f a i j k, in_grid s i j k ->
  (diff_fn s (g_dx g') o f a i j k * RtoC (dt_of g'))%C = (diff_fn s (g_dx g) o f a i j k * RtoC (dt_of g))%C.
Proof.
  intros o f a i j k (Hi & Hj & Hk). rewrite dt_scaled. unfold diff_fn, g_dx, uniform_dx.
  change (is_active g' a) with (is_active g a). change (g_spacing g' a) with (u * g_spacing g a).
  destruct (is_active g a) eqn:E.
  - destruct Hw as (_ & _ & Hp & _). pose proof (Hp a E). unfold Cdiv. rewrite <- !RtoC_inv by nra.
    rewrite Rinv_mult. rewrite !RtoC_mul. 
    assert (Q : (RtoC (/ u) * RtoC u)%C = C1) by (rewrite <- RtoC_mul, Rinv_l by lra; reflexivity).
    destruct o.
    + replace ((f i j k - roll_p1 s a f i j k) * (RtoC (/ u) * RtoC (/ g_spacing g a)) * (RtoC u * RtoC (dt_of g)))%C with
        ((RtoC (/ u) * RtoC u) * ((f i j k - roll_p1 s a f i j k) * RtoC (/ g_spacing g a) * RtoC (dt_of g)))%C by ring. rewrite Q. ring.
    + replace ((roll_m1 s a f i j k - f i j k) * (RtoC (/ u) * RtoC (/ g_spacing g a)) * (RtoC u * RtoC (dt_of g)))%C with
        ((RtoC (/ u) * RtoC u) * ((roll_m1 s a f i j k - f i j k) * RtoC (/ g_spacing g a) * RtoC (dt_of g)))%C by ring. rewrite Q. ring.
  - destruct Hw as (_ & _ & _ & H1). pose proof (H1 a E) as E1. fold s in E1.
    assert (Z : roll_p1 s a f i j k = f i j k /\ roll_m1 s a f i j k = f i j k).
    { unfold roll_p1, roll_m1, along, prv, nxt. destruct a; rewrite E1 in *; rewrite !Nat.mod_1_r;
        [replace i with 0%nat by lia | replace j with 0%nat by lia | replace k with 0%nat by lia]; auto. }
    destruct Z as (-> & ->). destruct o; unfold Cdiv; ring.
Qed.
Lemma curl_scaled : forall o f c i j k, in_grid s i j k ->
  (curl_fn (diff_fn s (g_dx g') o) f c i j k * RtoC (dt_of g'))%C = (curl_fn (diff_fn s (g_dx g) o) f c i j k * RtoC (dt_of g))%C.
Proof.
  intros o f c i j k H. unfold curl_fn. destruct c;
    match goal with |- ((?x - ?y) * ?t)%C = ((?p - ?q) * ?r)%C => replace ((x - y) * t)%C with (x * t - y * t)%C by ring;
      replace ((p - q) * r)%C with (p * r - q * r)%C by ring end; rewrite !diff_scaled by auto; reflexivity.
Qed.
Lemma curl_ext : forall o f h c i j k, eqs s f h -> in_grid s i j k ->
  curl_fn (diff_fn s (g_dx g) o) f c i j k = curl_fn (diff_fn s (g_dx g) o) h c i j k.
Proof.
  intros o f h c i j k E H. unfold curl_fn. destruct c;
    rewrite (diff_ext s (g_dx g) o (f AX) (h AX)) || idtac; rewrite (diff_ext s (g_dx g) o (f AY) (h AY)) || idtac; rewrite (diff_ext s (g_dx g) o (f AZ) (h AZ)) || idtac;
    auto; intros; apply E; auto.
Qed.
Lemma src_scaled : forall w, (RtoC (/ u) * w * RtoC (dt_of g'))%C = (w * RtoC (dt_of g))%C.
Proof.
  intro w. rewrite dt_scaled, RtoC_mul. assert (Q : (RtoC (/ u) * RtoC u)%C = C1) by (rewrite <- RtoC_mul, Rinv_l by lra; reflexivity).
  replace (RtoC (/ u) * w * (RtoC u * RtoC (dt_of g)))%C with ((RtoC (/ u) * RtoC u) * (w * RtoC (dt_of g)))%C by ring. rewrite Q. ring.
Qed.
Lemma eps_scaled : forall jax, eps_t g' jax = eps_t g jax. Proof. intros. reflexivity. Qed.
Lemma fold_e_scaled : forall jax l e e', eqs s e' e -> eqs s (fold_left (add_src_e g' jax) (map (scaled_source (/ u)) l) e') (fold_left (add_src_e g jax) l e).
Proof.
  intros jax l. induction l as [| x l IH]; intros e e' E; cbn [map fold_left]; [exact E |]. apply IH. intros c i j k H.
  unfold add_src_e, scaled_source. cbn [src_e src_region]. destruct (src_e x) as [v |]; cbn [option_map]; [| apply E; auto]. cbv zeta. rewrite eps_scaled.
  assert (Q : (RtoC (/ u) * v c i j k / RtoC (eps_t g jax c i j k) * RtoC (dt_of g'))%C = (v c i j k / RtoC (eps_t g jax c i j k) * RtoC (dt_of g))%C).
  { rewrite <- (src_scaled (v c i j k / RtoC (eps_t g jax c i j k))). unfold Cdiv. ring. }
  destruct jax; unfold at_set, at_add; destruct (src_region x c i j k); rewrite ?Q, ?(E c i j k H); reflexivity.
Qed.
Lemma fold_h_scaled : forall jax l e e', eqs s e' e -> eqs s (fold_left (add_src_h g' jax) (map (scaled_source (/ u)) l) e') (fold_left (add_src_h g jax) l e).
Proof.
  intros jax l. induction l as [| x l IH]; intros e e' E; cbn [map fold_left]; [exact E |]. apply IH. intros c i j k H.
  unfold add_src_h, scaled_source. cbn [src_h src_region]. destruct (src_h x) as [v |]; cbn [option_map]; [| apply E; auto]. cbv zeta.
  destruct jax; unfold at_set, at_add; destruct (src_region x c i j k); rewrite ?src_scaled, ?(E c i j k H); reflexivity.
Qed.
Lemma step_e_scaled : forall jax st st' l, eqs s (f_e st') (f_e st) -> eqs s (f_h st') (f_h st) ->
  eqs s (step_e g' jax st' (map (scaled_source (/ u)) l)) (step_e g jax st l).
Proof.
  intros jax st st' l He Hh. unfold step_e. apply fold_e_scaled. intros c i j k H. rewrite (He c i j k H), eps_scaled. f_equal.
  replace (curl_h g' (f_h st') c i j k / RtoC (eps_t g jax c i j k) * RtoC (dt_of g'))%C with
    ((curl_h g' (f_h st') c i j k * RtoC (dt_of g')) / RtoC (eps_t g jax c i j k))%C by (unfold Cdiv; ring).
  replace (curl_h g (f_h st) c i j k / RtoC (eps_t g jax c i j k) * RtoC (dt_of g))%C with
    ((curl_h g (f_h st) c i j k * RtoC (dt_of g)) / RtoC (eps_t g jax c i j k))%C by (unfold Cdiv; ring). f_equal.
  unfold curl_h. change (g_shape g') with s. rewrite curl_scaled by auto. fold s. rewrite (curl_ext true (f_h st') (f_h st)) by auto. reflexivity.
Qed.
Lemma step_scaled : forall jax st st' l, eqs s (f_e st') (f_e st) -> eqs s (f_h st') (f_h st) ->
  eqs s (f_e (step g' jax st' (map (scaled_source (/ u)) l))) (f_e (step g jax st l)) /\
  eqs s (f_h (step g' jax st' (map (scaled_source (/ u)) l))) (f_h (step g jax st l)).
Proof.
  intros jax st st' l He Hh. pose proof (step_e_scaled jax st st' l He Hh) as E. split; [exact E |].
  unfold step. cbn [f_h]. unfold step_h. apply fold_h_scaled. intros c i j k H. rewrite (Hh c i j k H). f_equal.
  unfold curl_e. change (g_shape g') with s. rewrite curl_scaled by auto. fold s. f_equal. apply curl_ext; auto.
Qed.
Lemma run_scaled : forall jax sch st st', eqs s (f_e st') (f_e st) -> eqs s (f_h st') (f_h st) ->
  eqs s (f_e (run g' jax st' (map (map (scaled_source (/ u))) sch))) (f_e (run g jax st sch)) /\
  eqs s (f_h (run g' jax st' (map (map (scaled_source (/ u))) sch))) (f_h (run g jax st sch)).
Proof.
  intros jax sch. induction sch as [| l sch IH]; intros st st' He Hh; cbn [map run]; [auto |].
  destruct (step_scaled jax st st' l He Hh) as (A & B). apply IH; auto.
Qed.
End Unit.
Lemma scaled_run : forall g u jax sch st c i j k, wf_grid g -> 0 < u -> in_grid (g_shape g) i j k ->
  f_e (run (scaled_grid u g) jax st (map (map (scaled_source (/ u))) sch)) c i j k = f_e (run g jax st sch) c i j k /\
  f_h (run (scaled_grid u g) jax st (map (map (scaled_source (/ u))) sch)) c i j k = f_h (run g jax st sch) c i j k.
Proof.
  intros g u jax sch st c i j k Hw Hu H.
  destruct (run_scaled g u Hw Hu jax sch st st) as (A & B); try (intros ? ? ? ? ?; reflexivity). split; [apply A | apply B]; auto.
Qed.
