(** The second derivatives in closed form. *)
From Coq Require Import Reals Lra Lia List ZArith Bool Arith.
From Verif Require Import Cx Arr Model_coupling Model_forward Model_vector Proof_node Proof_mesh Proof_forward Proof_vector Proof_hess1 Proof_hess2.
Import ListNotations.
Local Open Scope R_scope.

Definition mem (i : nat) (l : list nat) : bool := existsb (Nat.eqb i) l.
Lemma mem_In : forall i l, mem i l = true <-> In i l.
Proof.
  intros i l. unfold mem. rewrite existsb_exists. split.
  - intros (x & H & E). apply Nat.eqb_eq in E. subst. exact H.
  - intro H. exists i. split; [exact H | apply Nat.eqb_refl].
Qed.
Lemma mem_out : forall i l, ~ In i l -> mem i l = false.
Proof. intros i l H. destruct (mem i l) eqn:E; [exfalso; apply H, mem_In; exact E | reflexivity]. Qed.
Lemma mem_in : forall i l, In i l -> mem i l = true.
Proof. intros. apply mem_In. assumption. Qed.
Fixpoint tdesc (t : bt) (i j : nat) : bool := match t with
  | Lf _ => false
  | Nd nd T B => (Nat.eqb i (node_id nd) && mem j (ids T ++ ids B)) || tdesc T i j || tdesc B i j end.
Fixpoint ttop (t : bt) (i j : nat) : bool := match t with
  | Lf _ => false
  | Nd nd T B => (Nat.eqb i (node_id nd) && mem j (ids T)) || ttop T i j || ttop B i j end.
Lemma tdesc_ids : forall t i j, tdesc t i j = true -> In i (ids t) /\ In j (ids t).
Proof.
  induction t as [r | nd T IHT B IHB]; intros i j H; [discriminate |]. rewrite ids_nd. cbn [tdesc] in H.
  apply orb_true_iff in H. destruct H as [H | H]; [apply orb_true_iff in H; destruct H as [H | H] |].
  - apply andb_true_iff in H. destruct H as [H1 H2]. apply Nat.eqb_eq in H1. apply mem_In in H2. split; [left; auto | right; exact H2].
  - destruct (IHT i j H). split; right; apply in_or_app; auto.
  - destruct (IHB i j H). split; right; apply in_or_app; auto.
Qed.
Lemma ttop_ids : forall t i j, ttop t i j = true -> In i (ids t) /\ In j (ids t).
Proof.
  induction t as [r | nd T IHT B IHB]; intros i j H; [discriminate |]. rewrite ids_nd. cbn [ttop] in H.
  apply orb_true_iff in H. destruct H as [H | H]; [apply orb_true_iff in H; destruct H as [H | H] |].
  - apply andb_true_iff in H. destruct H as [H1 H2]. apply Nat.eqb_eq in H1. apply mem_In in H2. split; [left; auto | right; apply in_or_app; auto].
  - destruct (IHT i j H). split; right; apply in_or_app; auto.
  - destruct (IHB i j H). split; right; apply in_or_app; auto.
Qed.
Lemma tdesc_out1 : forall t i j, ~ In i (ids t) -> tdesc t i j = false.
Proof. intros t i j H. destruct (tdesc t i j) eqn:E; [destruct (tdesc_ids t i j E); tauto | reflexivity]. Qed.
Lemma tdesc_out2 : forall t i j, ~ In j (ids t) -> tdesc t i j = false.
Proof. intros t i j H. destruct (tdesc t i j) eqn:E; [destruct (tdesc_ids t i j E); tauto | reflexivity]. Qed.
Lemma ttop_out1 : forall t i j, ~ In i (ids t) -> ttop t i j = false.
Proof. intros t i j H. destruct (ttop t i j) eqn:E; [destruct (ttop_ids t i j E); tauto | reflexivity]. Qed.
Lemma ttop_out2 : forall t i j, ~ In j (ids t) -> ttop t i j = false.
Proof. intros t i j H. destruct (ttop t i j) eqn:E; [destruct (ttop_ids t i j E); tauto | reflexivity]. Qed.

Section closed.
Variables (z : zmap) (v : vec) (pnF snF : nat -> R).
Hypothesis Hz : forall b k, (z b k * Cconj (z b k))%C = C1.
Hypothesis Hu : forall k, quad_unit (mkQuad (zq11 z k) (zq12 z k) (zq21 z k) (zq22 z k)).
Notation gd := (good z v pnF snF).
Notation w := (wt pnF snF).

Definition lift (t : bt) (x y : phase) : R := if fst x then (if ttop t (snd x) (snd y) then 2 * w y else 0) else w y.
Definition hu (t : bt) (x y : phase) : R :=
  if Nat.eqb (snd x) (snd y) then (if Bool.eqb (fst x) (fst y) then 2 * w x else snF (snd x))
  else if tdesc t (snd x) (snd y) then lift t x y
  else if tdesc t (snd y) (snd x) then lift t y x
  else 0.

Lemma im_zero : forall c, im c = 0 -> c = RtoC (re c).
Proof. intros [a b] H. cbn in H. subst b. reflexivity. Qed.
Lemma re_half : forall (r r' : R) (c : C), im c = 0 -> 2 * re (half * RtoC r + half * Ci * c)%C = r.
Proof. intros r r' [a b] H. cbn in H. subst b. unfold half. cbn. field. Qed.

(** One node's phase x, a phase y below it. *)
Lemma cross_T : forall k a b dy r, (zq11 z k * a + zq21 z k * b)%C = C0 -> (Cconj a * dy)%C = RtoC r -> (a = C0 -> dy = C0) ->
  2 * re (Cconj (zq12 z k * a + zq22 z k * b) * (half * Ci * z false k * z true k) * dy)%C = r.
Proof.
  intros k a b dy r Hn Hd H0. rewrite (cf_d12 z Hu k a b Hn).
  assert (Hr : im (Cconj b * z true k * dy)%C = 0).
  { destruct (Req_dec (Cn2 a) 0) as [E | E].
    - apply Cn2_zero_iff in E. rewrite (H0 E). cbn. ring.
    - assert (Edy : dy = (RtoC (r / Cn2 a) * a)%C).
      { assert (Ea : RtoC (Cn2 a) <> C0) by (apply RtoC_neq0; exact E).
        transitivity (Cinv (RtoC (Cn2 a)) * (RtoC (Cn2 a) * dy))%C; [field; exact Ea |].
        rewrite <- Cmul_conj at 2. transitivity (Cinv (RtoC (Cn2 a)) * a * (Cconj a * dy))%C; [ring |]. rewrite Hd.
        unfold Rdiv. rewrite RtoC_mul, RtoC_inv by exact E. ring. }
      pose proof (real_cross z Hz Hu k a b Hn) as Hc. apply im_zero in Hc.
      replace (Cconj b * z true k * dy)%C with (RtoC (r / Cn2 a) * (Cconj b * z true k * a))%C by (rewrite Edy; ring).
      rewrite Hc. cbn. ring. }
  replace ((half * Cconj a - half * Ci * (Cconj b * z true k)) * dy)%C with (half * (Cconj a * dy) + half * Ci * (- (Cconj b * z true k * dy)))%C by ring.
  rewrite Hd. apply re_half; [exact r |]. cbn [im Copp]. rewrite Hr. ring.
Qed.
Lemma cross_B : forall k a b dy r, (zq11 z k * a + zq21 z k * b)%C = C0 -> (Cconj b * dy)%C = RtoC r -> (b = C0 -> dy = C0) ->
  2 * re (Cconj (zq12 z k * a + zq22 z k * b) * (- half * z false k) * dy)%C = r.
Proof.
  intros k a b dy r Hn Hd H0. rewrite (cf_d22 z Hz Hu k a b Hn).
  assert (Hr : im (Cconj a * Cconj (z true k) * dy)%C = 0).
  { destruct (Req_dec (Cn2 b) 0) as [E | E].
    - apply Cn2_zero_iff in E. rewrite (H0 E). cbn. ring.
    - assert (Edy : dy = (RtoC (r / Cn2 b) * b)%C).
      { assert (Ea : RtoC (Cn2 b) <> C0) by (apply RtoC_neq0; exact E).
        transitivity (Cinv (RtoC (Cn2 b)) * (RtoC (Cn2 b) * dy))%C; [field; exact Ea |].
        rewrite <- Cmul_conj at 2. transitivity (Cinv (RtoC (Cn2 b)) * b * (Cconj b * dy))%C; [ring |]. rewrite Hd.
        unfold Rdiv. rewrite RtoC_mul, RtoC_inv by exact E. ring. }
      pose proof (real_cross z Hz Hu k a b Hn) as Hc.
      assert (Hc' : im (Cconj a * Cconj (z true k) * b)%C = 0).
      { replace (Cconj a * Cconj (z true k) * b)%C with (Cconj (Cconj b * z true k * a)) by (rewrite !Cconj_mul, Cconj_conj; ring).
        unfold Cconj at 1. cbn [im]. rewrite Hc. ring. }
      apply im_zero in Hc'.
      replace (Cconj a * Cconj (z true k) * dy)%C with (RtoC (r / Cn2 b) * (Cconj a * Cconj (z true k) * b))%C by (rewrite Edy; ring).
      rewrite Hc'. cbn. ring. }
  replace ((half * Cconj b + half * Ci * (Cconj a * Cconj (z true k))) * dy)%C with (half * (Cconj b * dy) + half * Ci * (Cconj a * Cconj (z true k) * dy))%C by ring.
  rewrite Hd. apply re_half; [exact r | exact Hr].
Qed.

(** The node's own phase x against a phase y below it. *)
Lemma own_below : forall x y nd T B, every gd (Nd nd T B) -> NoDup (ids (Nd nd T B)) -> snd x = node_id nd -> In (snd y) (ids T ++ ids B) ->
  2 * re (Cconj (za z v (Nd nd T B)) * (d12 z x (node_id nd) * dif z v y T + d22 z x (node_id nd) * dif z v y B))%C
  = if fst x then (if mem (snd y) (ids T) then 2 * w y else 0) else w y.
Proof.
  intros [bx i] y nd T B ((Hn & Hp & Hsn) & GT & GB) Hnd Ex Hy. cbn [snd fst] in *. subst i. rewrite ids_nd in Hnd.
  apply NoDup_cons_iff in Hnd. destruct Hnd as [Hk Hnd].
  pose proof (Proof_forward3.NoDup_app_fst _ _ _ Hnd) as HndT. pose proof (Proof_forward3.NoDup_app_snd _ _ _ Hnd) as HndB.
  unfold d12, d22. destruct bx.
  - replace (hit (true, node_id nd) false (node_id nd)) with false by reflexivity. rewrite hit_in. cbn [ind].
    replace (Cconj (za z v (Nd nd T B)) * ((C0 * (half * Ci * z false (node_id nd) * z true (node_id nd)) + C1 * zq12 z (node_id nd)) * dif z v y T + C0 * (- half * z false (node_id nd)) * dif z v y B))%C
      with (Cconj (zq12 z (node_id nd) * za z v T + zq22 z (node_id nd) * za z v B) * zq12 z (node_id nd) * dif z v y T)%C by (cbn [za]; ring).
    rewrite (cf_q12 z Hu _ _ _ Hn). destruct (mem (snd y) (ids T)) eqn:E.
    + apply mem_In in E. rewrite (dif_wt z v pnF snF Hu y T GT HndT E). cbn. ring.
    + rewrite (dif_out z v y T) by (intro K; apply mem_In in K; congruence). cbn. ring.
  - replace (hit (false, node_id nd) true (node_id nd)) with false by reflexivity. rewrite hit_in. cbn [ind].
    replace (Cconj (za z v (Nd nd T B)) * ((C1 * (half * Ci * z false (node_id nd) * z true (node_id nd)) + C0 * zq12 z (node_id nd)) * dif z v y T + C1 * (- half * z false (node_id nd)) * dif z v y B))%C
      with (Cconj (zq12 z (node_id nd) * za z v T + zq22 z (node_id nd) * za z v B) * (half * Ci * z false (node_id nd) * z true (node_id nd)) * dif z v y T
            + Cconj (zq12 z (node_id nd) * za z v T + zq22 z (node_id nd) * za z v B) * (- half * z false (node_id nd)) * dif z v y B)%C by (cbn [za]; ring).
    apply in_app_or in Hy. destruct Hy as [Hy | Hy].
    + rewrite (dif_out z v y B) by (intro K; apply (nodup_app_disj _ _ _ _ Hnd Hy K)).
      match goal with |- 2 * re (?p + ?q * C0)%C = _ => replace (p + q * C0)%C with p by ring end.
      apply cross_T; [exact Hn | apply (dif_wt z v pnF snF Hu y T GT HndT Hy) | apply (dif_zero z v pnF snF Hu y T GT)].
    + rewrite (dif_out z v y T) by (intro K; apply (nodup_app_disj _ _ _ _ Hnd K Hy)).
      match goal with |- 2 * re (?p * C0 + ?q)%C = _ => replace (p * C0 + q)%C with q by ring end.
      apply cross_B; [exact Hn | apply (dif_wt z v pnF snF Hu y B GB HndB Hy) | apply (dif_zero z v pnF snF Hu y B GB)].
Qed.

Lemma dif2_hu : forall x y t, every gd t -> NoDup (ids t) -> In (snd x) (ids t) -> In (snd y) (ids t) ->
  2 * re (Cconj (za z v t) * dif2 z v x y t)%C = hu t x y.
Proof.
  intros x y. induction t as [r | nd T IHT B IHB]; [intros _ _ [] |]. intros Hg Hnd Hx Hy.
  pose proof Hg as Hg'. pose proof Hnd as Hnd'. destruct Hg' as ((Hn & Hp & Hsn) & GT & GB). rewrite ids_nd in Hnd', Hx, Hy.
  apply NoDup_cons_iff in Hnd'. destruct Hnd' as [Hk Hd].
  pose proof (Proof_forward3.NoDup_app_fst _ _ _ Hd) as HndT. pose proof (Proof_forward3.NoDup_app_snd _ _ _ Hd) as HndB.
  assert (HkT : ~ In (node_id nd) (ids T)) by (intro K; apply Hk; apply in_or_app; auto).
  assert (HkB : ~ In (node_id nd) (ids B)) by (intro K; apply Hk; apply in_or_app; auto).
  destruct Hx as [Ex | Hx]; destruct Hy as [Ey | Hy].
  - (* both the node's own *)
    cbn [dif2]. rewrite (dif_out z v y T), (dif_out z v y B), (dif_out z v x T), (dif_out z v x B), (dif2_outx z v x y T), (dif2_outx z v x y B) by congruence.
    unfold hu. rewrite <- Ex, <- Ey, Nat.eqb_refl. destruct x as [bx i], y as [by_ j]. cbn [fst snd] in *. subst i j.
    destruct bx, by_; cbn [Bool.eqb fst snd]; unfold dd12, dd22;
      rewrite ?(hit_in true), ?(hit_in false);
      replace (hit (true, node_id nd) false (node_id nd)) with false by reflexivity;
      replace (hit (false, node_id nd) true (node_id nd)) with false by reflexivity; cbn [ind].
    + pose proof (dif_wt z v pnF snF Hu (true, node_id nd) (Nd nd T B) Hg Hnd) as H. cbn [snd] in H. rewrite ids_nd in H. specialize (H (or_introl eq_refl)).
      cbn [dif] in H. rewrite (dif_out z v (true, node_id nd) T), (dif_out z v (true, node_id nd) B) in H by assumption. unfold d12, d22 in H.
      rewrite (hit_in true) in H. replace (hit (true, node_id nd) false (node_id nd)) with false in H by reflexivity. cbn [ind] in H.
      match goal with |- 2 * re ?e = _ => match type of H with ?e' = _ => replace e with e' by ring end end. rewrite H. cbn. ring.
    + match goal with |- 2 * re ?e = _ => replace e with (Cconj (zq12 z (node_id nd) * za z v T + zq22 z (node_id nd) * za z v B) * (half * Ci * z false (node_id nd) * z true (node_id nd)) * za z v T)%C by (cbn [za]; ring) end.
      rewrite <- Hsn. apply cross_T; [exact Hn | apply cmul_conj' | auto].
    + match goal with |- 2 * re ?e = _ => replace e with (Cconj (zq12 z (node_id nd) * za z v T + zq22 z (node_id nd) * za z v B) * (half * Ci * z false (node_id nd) * z true (node_id nd)) * za z v T)%C by (cbn [za]; ring) end.
      rewrite <- Hsn. apply cross_T; [exact Hn | apply cmul_conj' | auto].
    + pose proof (dif_wt z v pnF snF Hu (false, node_id nd) (Nd nd T B) Hg Hnd) as H. cbn [snd] in H. rewrite ids_nd in H. specialize (H (or_introl eq_refl)).
      cbn [dif] in H. rewrite (dif_out z v (false, node_id nd) T), (dif_out z v (false, node_id nd) B) in H by assumption. unfold d12, d22 in H.
      rewrite (hit_in false) in H. replace (hit (false, node_id nd) true (node_id nd)) with false in H by reflexivity. cbn [ind] in H.
      match goal with |- 2 * re ?e = _ => match type of H with ?e' = _ => replace e with e' by ring end end. rewrite H. cbn. ring.
  - (* x the node's own, y below *)
    assert (Ey : snd y <> node_id nd) by (intro K; apply Hk; rewrite <- K; exact Hy).
    assert (Exy : Nat.eqb (snd x) (snd y) = false) by (apply Nat.eqb_neq; congruence).
    cbn [dif2]. rewrite dd12_outy, dd22_outy, (d12_out z y), (d22_out z y), (dif2_outx z v x y T), (dif2_outx z v x y B) by congruence.
    match goal with |- 2 * re ?e = _ => replace e with (Cconj (za z v (Nd nd T B)) * (d12 z x (node_id nd) * dif z v y T + d22 z x (node_id nd) * dif z v y B))%C by ring end.
    rewrite (own_below x y nd T B Hg Hnd (eq_sym Ex) Hy). unfold hu, lift. rewrite Exy. cbn [tdesc ttop]. rewrite <- Ex, Nat.eqb_refl, (mem_in (snd y) _ Hy). cbn [andb orb].
    rewrite (ttop_out1 T), (ttop_out1 B), !orb_false_r by assumption. reflexivity.
  - assert (Ex : snd x <> node_id nd) by (intro K; apply Hk; rewrite <- K; exact Hx).
    assert (Exy : Nat.eqb (snd x) (snd y) = false) by (apply Nat.eqb_neq; congruence).
    cbn [dif2]. rewrite dd12_outx, dd22_outx, (d12_out z x), (d22_out z x), (dif2_outy z v x y T), (dif2_outy z v x y B) by congruence.
    match goal with |- 2 * re ?e = _ => replace e with (Cconj (za z v (Nd nd T B)) * (d12 z y (node_id nd) * dif z v x T + d22 z y (node_id nd) * dif z v x B))%C by ring end.
    rewrite (own_below y x nd T B Hg Hnd (eq_sym Ey) Hx). unfold hu, lift. rewrite Exy. cbn [tdesc ttop]. rewrite <- Ey, Nat.eqb_refl, (mem_in (snd x) _ Hx).
    replace (Nat.eqb (snd x) (node_id nd)) with false by (symmetry; apply Nat.eqb_neq; exact Ex). cbn [andb orb].
    rewrite (tdesc_out2 T (snd x)), (tdesc_out2 B (snd x)), (ttop_out1 T (node_id nd)), (ttop_out1 B (node_id nd)), !orb_false_r by assumption. reflexivity.
  - assert (Ex : snd x <> node_id nd) by (intro K; apply Hk; rewrite <- K; exact Hx).
    assert (Ey : snd y <> node_id nd) by (intro K; apply Hk; rewrite <- K; exact Hy).
    cbn [dif2]. rewrite dd12_outx, dd22_outx, (d12_out z x), (d22_out z x), (d12_out z y), (d22_out z y) by assumption.
    apply in_app_or in Hx. apply in_app_or in Hy.
    assert (Ehu : hu (Nd nd T B) x y = if Nat.eqb (snd x) (snd y) then (if Bool.eqb (fst x) (fst y) then 2 * w x else snF (snd x))
      else if (tdesc T (snd x) (snd y) || tdesc B (snd x) (snd y))%bool then (if fst x then (if (ttop T (snd x) (snd y) || ttop B (snd x) (snd y))%bool then 2 * w y else 0) else w y)
      else if (tdesc T (snd y) (snd x) || tdesc B (snd y) (snd x))%bool then (if fst y then (if (ttop T (snd y) (snd x) || ttop B (snd y) (snd x))%bool then 2 * w x else 0) else w x) else 0).
    { unfold hu, lift. cbn [tdesc ttop]. replace (Nat.eqb (snd x) (node_id nd)) with false by (symmetry; apply Nat.eqb_neq; exact Ex).
      replace (Nat.eqb (snd y) (node_id nd)) with false by (symmetry; apply Nat.eqb_neq; exact Ey). cbn [andb orb]. reflexivity. }
    rewrite Ehu. clear Ehu. destruct Hx as [Hx | Hx]; destruct Hy as [Hy | Hy].
    + assert (Nx : ~ In (snd x) (ids B)) by (intro K; apply (nodup_app_disj _ _ _ _ Hd Hx K)).
      assert (Ny : ~ In (snd y) (ids B)) by (intro K; apply (nodup_app_disj _ _ _ _ Hd Hy K)).
      rewrite (dif2_outx z v x y B), (tdesc_out1 B (snd x)), (tdesc_out1 B (snd y)), (ttop_out1 B (snd x)), (ttop_out1 B (snd y)), !orb_false_r by assumption.
      match goal with |- 2 * re ?e = _ => replace e with (Cconj (zq12 z (node_id nd) * za z v T + zq22 z (node_id nd) * za z v B) * zq12 z (node_id nd) * dif2 z v x y T)%C by (cbn [za]; ring) end.
      rewrite (cf_q12 z Hu _ _ _ Hn). exact (IHT GT HndT Hx Hy).
    + assert (Nx : ~ In (snd x) (ids B)) by (intro K; apply (nodup_app_disj _ _ _ _ Hd Hx K)).
      assert (Ny : ~ In (snd y) (ids T)) by (intro K; apply (nodup_app_disj _ _ _ _ Hd K Hy)).
      rewrite (dif2_outx z v x y B), (dif2_outy z v x y T), (tdesc_out1 B (snd x)), (tdesc_out2 B _ (snd x)), (tdesc_out2 T _ (snd y)), (tdesc_out1 T (snd y)) by assumption.
      replace (Nat.eqb (snd x) (snd y)) with false by (symmetry; apply Nat.eqb_neq; intro K; apply Ny; rewrite <- K; exact Hx). cbn [orb].
      match goal with |- 2 * re ?e = _ => replace e with C0 by ring end. cbn. ring.
    + assert (Nx : ~ In (snd x) (ids T)) by (intro K; apply (nodup_app_disj _ _ _ _ Hd K Hx)).
      assert (Ny : ~ In (snd y) (ids B)) by (intro K; apply (nodup_app_disj _ _ _ _ Hd Hy K)).
      rewrite (dif2_outx z v x y T), (dif2_outy z v x y B), (tdesc_out1 T (snd x)), (tdesc_out2 T _ (snd x)), (tdesc_out2 B _ (snd y)), (tdesc_out1 B (snd y)) by assumption.
      replace (Nat.eqb (snd x) (snd y)) with false by (symmetry; apply Nat.eqb_neq; intro K; apply Ny; rewrite <- K; exact Hx). cbn [orb].
      match goal with |- 2 * re ?e = _ => replace e with C0 by ring end. cbn. ring.
    + assert (Nx : ~ In (snd x) (ids T)) by (intro K; apply (nodup_app_disj _ _ _ _ Hd K Hx)).
      assert (Ny : ~ In (snd y) (ids T)) by (intro K; apply (nodup_app_disj _ _ _ _ Hd K Hy)).
      rewrite (dif2_outx z v x y T), (tdesc_out1 T (snd x)), (tdesc_out1 T (snd y)), (ttop_out1 T (snd x)), (ttop_out1 T (snd y)) by assumption. cbn [orb].
      match goal with |- 2 * re ?e = _ => replace e with (Cconj (zq12 z (node_id nd) * za z v T + zq22 z (node_id nd) * za z v B) * zq22 z (node_id nd) * dif2 z v x y B)%C by (cbn [za]; ring) end.
      rewrite (cf_q22 z Hu _ _ _ Hn). exact (IHB GB HndB Hx Hy).
Qed.
End closed.
