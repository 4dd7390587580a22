(** Time reversal of explicit propagation (C127) and the digital variant of in-situ backpropagation (C25). *)
From Coq Require Import Reals Lra Lia List ZArith Permutation Bool FunctionalExtensionality.
From Verif Require Import Cx Arr Spec_circuit Model_coupling Model_forward Model_insitu Model_insitu2 Spec_mesh Spec_insitu
  Proof_node Proof_mesh Proof_forward Proof_forward2 Proof_forward3 Proof_forward4 Proof_insitu Proof_insitu2 Proof_insitu3.
Import ListNotations.
Local Open Scope R_scope.

Definition qrev (q : quad) : Prop := forall x y,
  qtop q (Cconj (qtop q x y)) (Cconj (qbot q x y)) = Cconj x /\ qbot q (Cconj (qtop q x y)) (Cconj (qbot q x y)) = Cconj y.

Lemma pt_rev : forall el idx v, (forall k, qrev (el k)) -> NoDup (rails idx) ->
  parallel_transform el idx (vconj (parallel_transform el idx v)) = vconj v.
Proof.
  intros el idx v H Hnd. apply functional_extensionality; intro j. unfold vconj at 2.
  destruct (in_dec Nat.eq_dec j (rails idx)) as [Hj | Hj].
  - destruct (rails_inv _ _ Hj) as (t & b & k & Hin & [E | E]); subst j.
    + rewrite (pt_top _ idx _ t b k) by auto. unfold vconj. rewrite (pt_top _ idx _ t b k), (pt_bot _ idx _ t b k) by auto. apply H.
    + rewrite (pt_bot _ idx _ t b k) by auto. unfold vconj. rewrite (pt_top _ idx _ t b k), (pt_bot _ idx _ t b k) by auto. apply H.
  - rewrite pt_other by auto. unfold vconj. rewrite pt_other by auto. reflexivity.
Qed.
Lemma pt_axpy : forall el idx x z y, NoDup (rails idx) ->
  parallel_transform el idx (vaxpy x z y) = vaxpy (parallel_transform el idx x) z (parallel_transform el idx y).
Proof.
  intros el idx x z y Hnd. apply functional_extensionality; intro j. unfold vaxpy at 2.
  destruct (in_dec Nat.eq_dec j (rails idx)) as [Hj | Hj].
  - destruct (rails_inv _ _ Hj) as (t & b & k & Hin & [E | E]); subst j.
    + rewrite !(pt_top _ idx _ t b k) by auto. unfold vaxpy, qtop. ring.
    + rewrite !(pt_bot _ idx _ t b k) by auto. unfold vaxpy, qbot. ring.
  - rewrite !pt_other by auto. reflexivity.
Qed.

Lemma qrev_diag : forall s t, qrev (qdiag s t).
Proof.
  intros s t [x1 x2] [y1 y2].
  assert (Hc : cos t * cos t = 1 - sin t * sin t) by (pose proof (sin2_cos2 t) as H; unfold Rsqr in H; lra).
  destruct s; split; unfold qtop, qbot, qdiag; cbn [t11 t12 t21 t22]; apply C_eq; cbn; ring [Hc].
Qed.
Lemma qrev_dc : forall rt e ls, ls = (0, 0) -> qrev (parallel_dc rt e ls).
Proof.
  intros rt e ls ->. unfold parallel_dc.
  assert (E0 : exp (ln 10 * sel (0, 0) rt / 20) = 1).
  { replace (ln 10 * sel (0, 0) rt / 20) with 0 by (destruct rt; cbn; field). apply exp_0. }
  rewrite E0. set (t := PI / 4 + sel e rt).
  assert (Hc : cos t * cos t = 1 - sin t * sin t) by (pose proof (sin2_cos2 t) as H; unfold Rsqr in H; lra).
  intros [x1 x2] [y1 y2]. split; unfold qtop, qbot; cbn [t11 t12 t21 t22]; apply C_eq; cbn; ring [Hc].
Qed.

Section Slices.
Variables (s : phase_style) (p : params) (left right : nat -> quad).
Hypothesis Hs : s = TOP \/ s = BOTTOM.
Hypothesis Hl : forall k, qrev (left k).
Hypothesis Hr : forall k, qrev (right k).

Lemma prop_explicit_app : forall back i1 i2 v,
  prop_explicit s back p left right (i1 ++ i2) v =
  obind (prop_explicit s back p left right i1 v) (fun s1 => obind (prop_explicit s back p left right i2 (last s1 v)) (fun s2 => Some (s1 ++ s2))).
Proof.
  intros back i1. induction i1 as [| i i1 IH]; intros i2 v.
  - cbn [List.app prop_explicit obind last]. destruct (prop_explicit s back p left right i2 v); reflexivity.
  - cbn [List.app prop_explicit]. destruct (parallel_propagate s back p left right i v) as [sl |]; [| reflexivity]. cbn [obind].
    rewrite IH. destruct (prop_explicit s back p left right i1 (last sl v)) as [s1 |]; [| reflexivity]. cbn [obind].
    rewrite last_app'. destruct (prop_explicit s back p left right i2 (last s1 (last sl v))) as [s2 |]; [| reflexivity].
    cbn [obind]. rewrite app_assoc. reflexivity.
Qed.

Lemma retrace : forall idxs w, Forall (fun i => NoDup (rails i)) idxs ->
  exists slb slf, prop_explicit s true p left right (rev idxs) w = Some slb /\
    prop_explicit s false p left right idxs (vconj (last slb w)) = Some slf /\
    vconj (last slb w) :: slf = map vconj (rev (w :: slb)).
Proof.
  intros idxs. induction idxs as [| i idxs IH]; intros w HF.
  - exists [], []. repeat split.
  - inversion HF; subst. destruct (IH w H2) as (slb & slf & E1 & E2 & E3). clear IH. cbn [rev]. rewrite prop_explicit_app, E1. cbn [obind].
    set (u := last slb w) in *. cbn [prop_explicit]. unfold parallel_propagate at 1. rewrite !multiply_transform by auto. cbn [obind].
    rewrite multiply_transform by auto. cbn [obind List.app].
    set (b1 := parallel_transform right i u). set (b2 := parallel_transform (fun k => qdiag s (thetas p k)) i b1).
    set (b3 := parallel_transform left i b2). set (b4 := parallel_transform (fun k => qdiag s (phis p k)) i b3).
    eexists. exists (vconj b3 :: vconj b2 :: vconj b1 :: vconj u :: slf). split; [reflexivity |].
    rewrite last_app'. cbn [last]. unfold parallel_propagate. rewrite !multiply_transform by auto. cbn [obind].
    assert (R4 : parallel_transform (fun k => qdiag s (phis p k)) i (vconj b4) = vconj b3) by (apply pt_rev; auto using qrev_diag).
    assert (R3 : parallel_transform left i (vconj b3) = vconj b2) by (apply pt_rev; auto).
    assert (R2 : parallel_transform (fun k => qdiag s (thetas p k)) i (vconj b2) = vconj b1) by (apply pt_rev; auto using qrev_diag).
    assert (R1 : parallel_transform right i (vconj b1) = vconj u) by (apply pt_rev; auto).
    rewrite multiply_transform by auto. cbn [obind]. rewrite R4, R3, R2, R1. cbn [last]. rewrite E2. cbn [obind List.app]. split; [reflexivity |].
    rewrite E3. change (w :: slb ++ [b1; b2; b3; b4]) with ((w :: slb) ++ [b1; b2; b3; b4]). rewrite rev_app_distr. reflexivity.
Qed.

Lemma slices_axpy : forall idxs x z y, Forall (fun i => NoDup (rails i)) idxs ->
  exists sx sy, prop_explicit s false p left right idxs x = Some sx /\ prop_explicit s false p left right idxs y = Some sy /\ length sx = length sy /\
    prop_explicit s false p left right idxs (vaxpy x z y) = Some (map (fun ab => vaxpy (fst ab) z (snd ab)) (combine sx sy)) /\
    last (map (fun ab => vaxpy (fst ab) z (snd ab)) (combine sx sy)) (vaxpy x z y) = vaxpy (last sx x) z (last sy y).
Proof.
  intros idxs. induction idxs as [| i idxs IH]; intros x z y HF.
  - exists [], []. repeat split.
  - inversion HF; subst. cbn [prop_explicit]. unfold parallel_propagate. rewrite !multiply_transform by auto. cbn [obind].
    rewrite !multiply_transform by auto. cbn [obind last]. rewrite !pt_axpy by auto.
    destruct (IH (parallel_transform right i (parallel_transform (fun k : nat => qdiag s (thetas p k)) i
                  (parallel_transform left i (parallel_transform (fun k : nat => qdiag s (phis p k)) i x)))) z
                 (parallel_transform right i (parallel_transform (fun k : nat => qdiag s (thetas p k)) i
                  (parallel_transform left i (parallel_transform (fun k : nat => qdiag s (phis p k)) i y)))) H2) as (sx & sy & E1 & E2 & E3 & E4 & E5).
    rewrite E1, E2, E4. cbn [obind]. eexists. eexists. split; [reflexivity |]. split; [reflexivity |].
    split; [cbn [List.app length]; lia |]. split; [reflexivity |].
    cbn [List.app combine map fst snd]. rewrite !last_cons'. exact E5.
Qed.
End Slices.

(** ** C127 *)
Lemma gammas_rev : forall gm v, apply_gammas gm (vconj (apply_gammas gm v)) = vconj v.
Proof.
  intros gm v. apply functional_extensionality; intro i. unfold apply_gammas, vconj. rewrite Cconj_mul.
  assert (E : (cis (gm i) * Cconj (cis (gm i)))%C = C1).
  { apply C_eq; cbn; pose proof (sin2_cos2 (gm i)) as H; unfold Rsqr in H; nra. }
  replace (cis (gm i) * (Cconj (cis (gm i)) * Cconj (v i)))%C with (cis (gm i) * Cconj (cis (gm i)) * Cconj (v i))%C by ring.
  rewrite E. ring.
Qed.

Lemma propagate_retrace : forall m p w, wf_mesh m -> style m = TOP \/ style m = BOTTOM -> (forall l, In l (losses m) -> l = (0, 0)) ->
  exists back fwd, propagate m true true p w = Some back /\
    propagate m false true p (vconj (last back w)) = Some fwd /\ fwd = map vconj (rev back).
Proof.
  intros m p w Hwf Hs Hloss. destruct (wf_total m Hwf) as (cols & Hc & Hok). pose proof Hwf as (Hd & _).
  pose proof (mesh_idxs_nodup m false cols Hd Hc) as HF. pose proof (Hok true) as Hb. pose proof (Hok false) as Hf. unfold mesh_idxs in *.
  assert (Eloss : forall k, loss_at m k = (0, 0)).
  { intro k. unfold loss_at. destruct (nth_in_or_default k (losses m) (0,0)); auto. }
  destruct (retrace (style m) p (fun k => parallel_dc false (err_at m k) (loss_at m k)) (fun k => parallel_dc true (err_at m k) (loss_at m k)) Hs
     (fun k => qrev_dc false _ _ (Eloss k)) (fun k => qrev_dc true _ _ (Eloss k)) (map triples cols) (apply_gammas (gammas p) w) HF)
    as (slb & slf & E1 & E2 & E3).
  unfold propagate. rewrite Hc. cbn [obind]. rewrite Hb, Hf. cbn [last]. rewrite map_rev, E1. cbn [obind].
  exists ([w; apply_gammas (gammas p) w] ++ slb ++ []). eexists. split; [reflexivity |].
  rewrite app_nil_r, last_app'. cbn [last]. rewrite E2. cbn [obind]. split; [reflexivity |].
  set (u := apply_gammas (gammas p) w) in *. cbn [List.app].
  change (map vconj (rev (w :: u :: slb))) with (map vconj (rev (u :: slb) ++ [w])). rewrite map_app, <- E3. cbn [List.app map]. f_equal. f_equal. f_equal.
  assert (L : last (vconj (last slb u) :: slf) u = vconj u).
  { rewrite E3. cbn [rev]. rewrite map_app. cbn [map]. apply last_app_single. }
  rewrite last_cons' in L. rewrite L. apply gammas_rev.
Qed.

Lemma propagate_axpy : forall m p x z y, wf_mesh m -> style m = TOP \/ style m = BOTTOM -> (forall l, In l (losses m) -> l = (0, 0)) ->
  exists sx sy, propagate m false true p x = Some sx /\ propagate m false true p y = Some sy /\ length sx = length sy /\
    propagate m false true p (vaxpy x z y) = Some (map (fun ab => vaxpy (fst ab) z (snd ab)) (combine sx sy)).
Proof.
  intros m p x z y Hwf Hs Hloss. destruct (wf_total m Hwf) as (cols & Hc & Hok). pose proof Hwf as (Hd & _).
  pose proof (mesh_idxs_nodup m false cols Hd Hc) as HF. pose proof (Hok false) as Hf. unfold mesh_idxs in *.
  assert (Eloss : forall k, loss_at m k = (0, 0)).
  { intro k. unfold loss_at. destruct (nth_in_or_default k (losses m) (0,0)); auto. }
  destruct (slices_axpy (style m) p (fun k => parallel_dc false (err_at m k) (loss_at m k)) (fun k => parallel_dc true (err_at m k) (loss_at m k)) Hs
     (map triples cols) x z y HF) as (sx & sy & E1 & E2 & E3 & E4 & E5).
  unfold propagate. rewrite Hc. cbn [obind]. rewrite Hf. cbn [last]. rewrite E1, E2, E4. cbn [obind].
  eexists. eexists. split; [reflexivity |]. split; [reflexivity |]. split; [cbn [List.app length]; rewrite !app_length; cbn [length]; lia |].
  f_equal. cbn [List.app combine map fst snd]. f_equal. rewrite combine_snoc by auto. rewrite map_app. cbn [map fst snd]. rewrite E5, gammas_axpy. reflexivity.
Qed.

(** ** Digital = analog *)
Lemma Cn2_conj : forall z, Cn2 (Cconj z) = Cn2 z.
Proof. intros [a b]. unfold Cn2. cbn. ring. Qed.
Lemma tap_same : forall c d (f k : C), tap c d (f + - Ci * k)%C (f + Ci * k)%C = tap_digital c d (f + - Ci * k)%C f (Cconj k).
Proof. intros c d [f1 f2] [k1 k2]. unfold tap, tap_digital, Cn2. cbn. field. Qed.
Lemma taps_lists : forall c d (sx sk adj : list vec), length sx = length sk -> sk = map vconj adj ->
  map (fun sd => let '(u, v) := sd in fun r => tap c d (u r) (v r))
    (combine (map (fun ab => vaxpy (fst ab) (- Ci)%C (snd ab)) (combine sx sk)) (map (fun ab => vaxpy (fst ab) Ci (snd ab)) (combine sx sk))) =
  map (fun t => let '(u, (f, b)) := t in fun r => tap_digital c d (u r) (f r) (b r))
    (combine (map (fun ab => vaxpy (fst ab) (- Ci)%C (snd ab)) (combine sx sk)) (combine sx adj)).
Proof.
  intros c d sx. induction sx as [| x sx IH]; intros sk adj HL E; [reflexivity |].
  destruct sk as [| k sk]; [discriminate |]. destruct adj as [| a adj]; [discriminate |]. cbn [map] in E.
  assert (E1 : k = vconj a) by congruence. assert (E2 : sk = map vconj adj) by congruence.
  cbn [combine map fst snd]. f_equal.
  - apply functional_extensionality; intro r. unfold vaxpy. rewrite tap_same. subst k. unfold vconj. rewrite Cconj_conj. reflexivity.
  - apply IH; auto.
Qed.

Definition analog_taps (m : mesh) (p : params) (c d : R) (x' g' : vec) : option (list (nat -> R) * vec) :=
  obind (matrix_fn m true p g') (fun a =>
  obind (propagate m false true p (vaxpy x' (- Ci)%C (vconj a))) (fun s =>
  obind (propagate m false true p (vaxpy x' Ci (vconj a))) (fun dd =>
  Some (map (fun sd => let '(u, v) := sd in fun r => tap c d (u r) (v r)) (combine s dd), a)))).

Lemma taps_same : forall m p c d x g, wf_mesh m -> style m = TOP \/ style m = BOTTOM ->
  (forall e, In e (bs_errors m) -> e = (0, 0)) -> (forall l, In l (losses m) -> l = (0, 0)) ->
  digital_taps m p c d x g = analog_taps m p c d x g.
Proof.
  intros m p c d x g Hwf Hs He Hl. pose proof Hwf as (Hd & _).
  destruct (propagate_retrace m p g Hwf Hs Hl) as (back & fwd & B1 & B2 & B3).
  pose proof (propagate_explicit_last m true p g Hd Hs He Hl) as HL. rewrite B1 in HL.
  destruct (matrix_fn m true p g) as [a |] eqn:Ea; [| destruct HL].
  unfold digital_taps, analog_taps. rewrite B1, Ea. cbn [obind].
  assert (Hhd : hd (fun _ => C0) (rev back) = a).
  { rewrite <- HL. destruct back as [| b0 back] using rev_ind; [| rewrite rev_app_distr, last_app_single; reflexivity].
    exfalso. unfold propagate in B1. destruct (columns m); [| discriminate]. cbn [obind] in B1.
    destruct (forallb _ _); [| discriminate]. destruct (prop_explicit _ _ _ _ _ _ _); [| discriminate]. cbn [obind] in B1.
    apply Some_inj in B1. discriminate. }
  rewrite Hhd. rewrite HL in B2. clear Hhd.
  destruct (propagate_axpy m p x (- Ci)%C (vconj a) Hwf Hs Hl) as (sx & sk & X1 & X2 & X3 & X4).
  destruct (propagate_axpy m p x Ci (vconj a) Hwf Hs Hl) as (sx' & sk' & Y1 & Y2 & Y3 & Y4).
  rewrite X1 in Y1. apply Some_inj in Y1. subst sx'. rewrite X2 in Y2. apply Some_inj in Y2. subst sk'.
  rewrite X1. cbn [obind]. rewrite X4, Y4. cbn [obind]. rewrite X2 in B2. apply Some_inj in B2.
  f_equal. f_equal. symmetry. apply taps_lists; auto. congruence.
Qed.

Lemma digital_same : forall m p x g, wf_mesh m -> style m = TOP \/ style m = BOTTOM ->
  (forall e, In e (bs_errors m) -> e = (0, 0)) -> (forall l, In l (losses m) -> l = (0, 0)) ->
  in_situ_bwd_digital m p x g = in_situ_bwd m p x g.
Proof.
  intros m p x g Hwf Hs He Hl. unfold in_situ_bwd_digital, in_situ_bwd. cbv zeta. rewrite taps_same by auto. unfold analog_taps.
  destruct (matrix_fn _ _ _ _); [| reflexivity]. cbn [obind]. destruct (propagate _ _ _ _ _); [| reflexivity]. cbn [obind].
  destruct (propagate _ _ _ _ _); [| reflexivity]. cbn [obind fst snd]. reflexivity.
Qed.
Lemma digital_batch_same : forall m p k X G, wf_mesh m -> style m = TOP \/ style m = BOTTOM ->
  (forall e, In e (bs_errors m) -> e = (0, 0)) -> (forall l, In l (losses m) -> l = (0, 0)) ->
  in_situ_bwd_digital_batch m p k X G = in_situ_bwd_batch m p k X G.
Proof.
  intros m p k X G Hwf Hs He Hl. unfold in_situ_bwd_digital_batch, in_situ_bwd_batch. cbv zeta. destruct (columns m) as [cols |]; [| reflexivity]. cbn [obind].
  match goal with |- obind (all_some (map ?f _)) _ = obind (all_some (map ?h _)) _ => assert (E : f = h) end.
  { apply functional_extensionality; intro j. rewrite taps_same by auto. unfold analog_taps.
    destruct (matrix_fn _ _ _ _); [| reflexivity]. cbn [obind]. destruct (propagate _ _ _ _ _); [| reflexivity]. cbn [obind].
    destruct (propagate _ _ _ _ _); [| reflexivity]. reflexivity. }
  rewrite E. reflexivity.
Qed.
Lemma digital_grad : forall m p x g, clean m -> 0 < power (n_rails m) x -> 0 < power (n_rails m) g ->
  exists th ph ga a, in_situ_bwd_digital m p x g = Some (th, ph, ga, a) /\
  Forall2 (fun nd d => derivable_pt_lim (fun t => cost m g x (with_theta p (node_id nd) t)) (thetas p (node_id nd)) d) (column_order m) th /\
  Forall2 (fun nd d => derivable_pt_lim (fun t => cost m g x (with_phi p (node_id nd) t)) (phis p (node_id nd)) d) (column_order m) ph /\
  (forall r, (r < n_rails m)%nat -> derivable_pt_lim (fun t => cost m g x (with_gamma p r t)) (gammas p r) (ga r)) /\
  (forall v y, matrix_fn m false p v = Some y ->
     (RtoC (sqrt (power (n_rails m) g)) * Csum (n_rails m) (fun i => a i * v i))%C = Csum (n_rails m) (fun i => g i * y i)%C).
Proof.
  intros m p x g Hcl Hx Hg. destruct Hcl as [H1 H2 H3 H4]. rewrite digital_same by auto. apply insitu_grad; auto. constructor; auto.
Qed.
Lemma digital_grad_batch : forall m p k X G i1 j1 i2 j2, clean m ->
  (i1 < n_rails m)%nat -> (j1 < k)%nat -> X i1 j1 <> C0 -> (i2 < n_rails m)%nat -> (j2 < k)%nat -> G i2 j2 <> C0 ->
  exists th ph ga, in_situ_bwd_digital_batch m p k X G = Some (th, ph, ga) /\
  Forall2 (fun nd d => derivable_pt_lim (fun t => cost_batch m k G X (with_theta p (node_id nd) t)) (thetas p (node_id nd)) d) (column_order m) th /\
  Forall2 (fun nd d => derivable_pt_lim (fun t => cost_batch m k G X (with_phi p (node_id nd) t)) (phis p (node_id nd)) d) (column_order m) ph /\
  (forall r, (r < n_rails m)%nat -> derivable_pt_lim (fun t => cost_batch m k G X (with_gamma p r t)) (gammas p r) (ga r)).
Proof.
  intros m p k X G i1 j1 i2 j2 Hcl ? ? ? ? ? ?. destruct Hcl as [H1' H2' H3' H4']. rewrite digital_batch_same by auto. apply (insitu_grad_batch m p k X G i1 j1 i2 j2); auto. constructor; auto.
Qed.
