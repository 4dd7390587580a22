(** hessian_vector_unit and hessian_fd against the second derivatives of the misfit. *)
From Coq Require Import Reals Lra Lia List ZArith Bool Arith Permutation FunctionalExtensionality.
From Verif Require Import Cx Arr Spec_circuit Model_coupling Model_forward Model_vector Model_hess Spec_mesh Spec_tree Spec_hess Proof_node Proof_mesh Proof_forward Proof_forward2 Proof_forward3 Proof_forward4 Proof_tree Proof_vector Proof_insitu
  Proof_hess1 Proof_hess2 Proof_hess3 Proof_hess4 Proof_hess5 Proof_hess6.
Import ListNotations.
Local Open Scope R_scope.

Lemma mixed_form : forall (F dx dy d2 : C), mixed_partial (fun s u => 2 - 2 * re (F + dx * (cis s - C1) + dy * (cis u - C1) + d2 * (cis s - C1) * (cis u - C1))%C) (2 * re d2).
Proof.
  intros F dx dy d2. exists (fun u => 2 * im (dx + d2 * (cis u - C1))%C). split.
  - intro u. pose proof (deriv_re_cis (RtoC (-2) * (dx + d2 * (cis u - C1)))%C (RtoC 2 + RtoC (-2) * (F + dy * (cis u - C1)))%C 0) as H.
    rewrite cis_0 in H.
    replace (- im (RtoC (-2) * (dx + d2 * (cis u - C1)) * C1)%C) with (2 * im (dx + d2 * (cis u - C1))%C) in H by (cbn; ring).
    match goal with |- derivable_pt_lim ?f _ _ => match type of H with derivable_pt_lim ?g _ _ => replace f with g; [exact H |] end end.
    apply functional_extensionality. intro s. cbn. ring.
  - pose proof (deriv_re_cis (RtoC (-2) * Ci * d2)%C (RtoC (-2) * Ci * dx)%C 0) as H. rewrite cis_0 in H.
    replace (- im (RtoC (-2) * Ci * d2 * C1)%C) with (2 * re d2) in H by (cbn; ring).
    match goal with |- derivable_pt_lim ?f _ _ => match type of H with derivable_pt_lim ?g _ _ => replace f with g; [exact H |] end end.
    apply functional_extensionality. intro u. cbn. ring.
Qed.
Lemma mixed_unique : forall g h h', mixed_partial g h -> mixed_partial g h' -> h = h'.
Proof.
  intros g h h' (g1 & A1 & A2) (g2 & B1 & B2). assert (E : g1 = g2) by (apply functional_extensionality; intro u; apply (uniqueness_limite (fun s => g s u) 0); auto).
  subst g2. apply (uniqueness_limite g1 0); assumption.
Qed.
Lemma mixed_ext : forall g g' h, (forall s u, g s u = g' s u) -> mixed_partial g h -> mixed_partial g' h.
Proof.
  intros g g' h E H. replace g' with g; [exact H |]. apply functional_extensionality. intro s. apply functional_extensionality. intro u. apply E.
Qed.

Lemma zp_bump : forall n p a s, zp (bump n p a s) = zbump (zp p) (ph_of n a) (cis s).
Proof.
  intros n p a s. apply functional_extensionality. intro b. apply functional_extensionality. intro k.
  unfold zp, bump, zbump, ph_of. destruct (Nat.ltb a (n - 1)); cbn [fst snd thetas phis]; destruct b; cbn [Bool.eqb andb]; try reflexivity; unfold upd.
  - rewrite Nat.eqb_sym. destruct (Nat.eqb_spec a k) as [-> | E]; [apply cis_add | reflexivity].
  - rewrite Nat.eqb_sym. destruct (Nat.eqb_spec (a - (n - 1)) k) as [<- | E]; [apply cis_add | reflexivity].
Qed.
Lemma zp_bump2 : forall n p a b s u, zp (bump n (bump n p a s) b u) = z2 (zp p) (ph_of n a) (ph_of n b) (cis s - C1)%C (cis u - C1)%C.
Proof.
  intros. rewrite !zp_bump. unfold z2. f_equal; [f_equal |]; ring.
Qed.
Lemma bump_gammas : forall n p a s, gammas (bump n p a s) = gammas p.
Proof. intros. unfold bump. destruct (Nat.ltb a (n - 1)); reflexivity. Qed.
Lemma zp_unit : forall p b k, (zp p b k * Cconj (zp p b k))%C = C1.
Proof. intros. unfold zp. apply cis_conj_r. Qed.
Lemma zp_quad : forall p k, quad_unit (mkQuad (zq11 (zp p) k) (zq12 (zp p) k) (zq21 (zp p) k) (zq22 (zp p) k)).
Proof. intros. rewrite <- pn_z. apply pn_unit. Qed.
Lemma hu_sym : forall pnF snF t x y, NoDup (ids t) -> hu pnF snF t x y = hu pnF snF t y x.
Proof.
  intros pnF snF t [bx i] [by_ j] Hnd. unfold hu. cbn [fst snd]. rewrite (Nat.eqb_sym j i). destruct (Nat.eqb_spec i j) as [<- | E].
  - destruct bx, by_; reflexivity.
  - pose proof (tdesc_anti t i j Hnd). destruct (tdesc t i j), (tdesc t j i); try reflexivity. specialize (H eq_refl). discriminate.
Qed.

(** Everything about one programmed unit. *)
Record programmed (n : nat) (balanced : bool) (x : vec) (m : mesh) (p : params) (q : (nat -> R) * (nat -> R)) (T : bt) : Prop := {
  pr_good : every (good (zp p) x (fst q) (snd q)) T;
  pr_nd : NoDup (ids T);
  pr_in : forall i, In i (ids T) <-> (i < n - 1)%nat;
  pr_ds : ds_ok T (descendants n balanced);
  pr_leaves : leaves T = seq 0 n;
  pr_out : forall p', exists y, matrix_fn m false p' x = Some y /\ y (n - 1)%nat = (cis (gammas p' (n - 1)%nat) * za (zp p') x T)%C;
  pr_gamma : cis (gammas p (n - 1)%nat) = Cconj (za (zp p) x T);
  pr_one : Cn2 (za (zp p) x T) = 1 }.

Lemma normal_power : forall n v, 0 < power n v -> power n (fun i => Cconj (normalize n v i)) = 1.
Proof.
  intros n v H. unfold power. rewrite (Rsum_ext _ _ (fun i => / power n v * Cn2 (v i))).
  - rewrite Rsum_scal. fold (power n v). field. lra.
  - intros i Hi. rewrite Cn2_conj. unfold normalize. rewrite Cn2_mul, Cn2_RtoC. fold (power n v).
    rewrite <- Rinv_mult, sqrt_def by lra. reflexivity.
Qed.
Lemma cis_arg_unit : forall f, Cn2 f = 1 -> cis (- Carg f) = Cconj f.
Proof.
  intros f H. rewrite (Cconj_polar f). unfold Cabs. rewrite H, sqrt_1, cis_opp. change (RtoC 1) with C1. ring.
Qed.
Lemma unit_ready : forall n balanced v, (2 <= n)%nat -> 0 < power n v ->
  exists m p q T, conj_unit 0 (normalize n v) n balanced = Some (m, p) /\ unit_powers 0 m (fun i _ => Cconj (normalize n v i)) 0 = Some q /\
    programmed n balanced (fun i => Cconj (normalize n v i)) m p q T.
Proof.
  intros n balanced v Hn Hv.
  destruct (tree_progable n n balanced TOP Hn (Nat.le_refl n)) as (t & m & Et & Es & Hp & _ & En & _).
  destruct (unit_bt n balanced TOP t Hn Et) as (T & T1 & T2 & T3 & T4 & T5).
  rewrite <- En in T1.
  set (x := fun i => Cconj (normalize n v i)).
  destruct (unit_programmed n m x T Hn Hp T1 T2 T3 T4) as (p & q & W & E1 & E2 & E3 & E4 & E5 & E6).
  assert (E5' : Cn2 (amp p x T) = 1) by (rewrite E5; apply normal_power; exact Hv).
  exists m, p, q, T. split; [| split; [exact E2 |]].
  - unfold conj_unit, vector_unit. rewrite Et. cbn [obind]. rewrite Es. cbn [obind]. unfold x in E1. rewrite E1. reflexivity.
  - assert (Hids : Permutation (ids T) (seq 0 (n - 1))) by (unfold ids; rewrite T1; apply (pg_null _ _ _ Hp)).
    constructor; try assumption.
    + eapply Permutation_NoDup; [apply Permutation_sym, Hids | apply seq_NoDup].
    + intro i. split; intro H.
      * apply (Permutation_in _ Hids) in H. apply in_seq in H. lia.
      * apply (Permutation_in _ (Permutation_sym Hids)). apply in_seq. lia.
    + intro p'. rewrite <- za_amp. destruct (E6 p') as [H | H]; [| exact H].
      rewrite (progable_matrix n TOP m p' x Hp) in H. discriminate.
    + rewrite E4, <- za_amp. apply cis_arg_unit. exact E5'.
    + rewrite <- za_amp. exact E5'.
Qed.

Section partials.
Variables (n : nat) (balanced : bool) (x : vec) (m : mesh) (p : params) (q : (nat -> R) * (nat -> R)) (T : bt).
Hypothesis P : programmed n balanced x m p q T.
Notation z := (zp p).
Notation f := (za z x T).

Lemma misfit_bump : forall a b s u, misfit m n x (bump n (bump n p a s) b u) =
  2 - 2 * re (C1 + Cconj f * dif z x (ph_of n a) T * (cis s - C1) + Cconj f * dif z x (ph_of n b) T * (cis u - C1)
              + Cconj f * dif2 z x (ph_of n a) (ph_of n b) T * (cis s - C1) * (cis u - C1))%C.
Proof.
  intros a b s u. unfold misfit. destruct (pr_out _ _ _ _ _ _ _ P (bump n (bump n p a s) b u)) as (y & -> & ->).
  rewrite !bump_gammas, (pr_gamma _ _ _ _ _ _ _ P), zp_bump2, (za_bump z x _ _ _ _ T (pr_nd _ _ _ _ _ _ _ P)).
  do 2 f_equal. rewrite <- RtoC_1, <- (pr_one _ _ _ _ _ _ _ P), <- cmul_conj'. f_equal. ring.
Qed.
Lemma ph_in : forall a, (a < 2 * (n - 1))%nat -> In (snd (ph_of n a)) (ids T).
Proof.
  intros a H. apply (pr_in _ _ _ _ _ _ _ P). unfold ph_of. destruct (Nat.ltb_spec a (n - 1)); cbn [snd]; lia.
Qed.
Lemma second_hu : forall a b, (a < 2 * (n - 1))%nat -> (b < 2 * (n - 1))%nat ->
  second_partial m n x p a b (hu (fst q) (snd q) T (ph_of n a) (ph_of n b)).
Proof.
  intros a b Ha Hb. unfold second_partial.
  rewrite <- (dif2_hu z x (fst q) (snd q) (zp_unit p) (zp_quad p) (ph_of n a) (ph_of n b) T (pr_good _ _ _ _ _ _ _ P) (pr_nd _ _ _ _ _ _ _ P) (ph_in a Ha) (ph_in b Hb)).
  eapply mixed_ext; [intros; symmetry; apply misfit_bump |]. apply mixed_form.
Qed.
Lemma stationary : forall a, (a < 2 * (n - 1))%nat -> derivable_pt_lim (fun s => misfit m n x (bump n p a s)) 0 0.
Proof.
  intros a Ha.
  assert (E : (fun s => misfit m n x (bump n p a s)) = (fun s => re (C0 + (RtoC (-2) * RtoC (wt (fst q) (snd q) (ph_of n a))) * (cis s - C1))%C)).
  { apply functional_extensionality. intro s. pose proof (misfit_bump a a s 0) as H. rewrite cis_0 in H.
    assert (Eb : bump n (bump n p a s) a 0 = bump n p a s).
    { unfold bump. destruct (Nat.ltb a (n - 1)); cbn [thetas phis gammas]; f_equal; apply functional_extensionality; intro k; unfold upd;
        repeat (rewrite Nat.eqb_refl || match goal with |- context [Nat.eqb ?u ?w] => destruct (Nat.eqb_spec u w) end); subst; try lra; try congruence. }
    rewrite Eb in H. rewrite H, (dif_wt z x (fst q) (snd q) (zp_quad p) (ph_of n a) T (pr_good _ _ _ _ _ _ _ P) (pr_nd _ _ _ _ _ _ _ P) (ph_in a Ha)).
    cbn. ring. }
  rewrite E. pose proof (deriv_re_cis (RtoC (-2) * RtoC (wt (fst q) (snd q) (ph_of n a)))%C C0 0) as H. rewrite cis_0 in H.
  replace (- im (RtoC (-2) * RtoC (wt (fst q) (snd q) (ph_of n a)) * C1)%C) with 0 in H by (cbn; ring). exact H.
Qed.
Lemma misfit_zero : misfit m n x p = 0.
Proof.
  unfold misfit. destruct (pr_out _ _ _ _ _ _ _ P p) as (y & -> & ->). rewrite (pr_gamma _ _ _ _ _ _ _ P), cmul_conj', (pr_one _ _ _ _ _ _ _ P). cbn. ring.
Qed.
(** The power at a node is the power of the inputs below it. *)
Definition below (t : bt) : R := fold_right Rplus 0 (map (fun r => Cn2 (x r)) (leaves t)).
Lemma below_app : forall a b, fold_right Rplus 0 (map (fun r => Cn2 (x r)) (a ++ b)) = fold_right Rplus 0 (map (fun r => Cn2 (x r)) a) + fold_right Rplus 0 (map (fun r => Cn2 (x r)) b).
Proof. induction a as [| r a IH]; intro b; cbn; [ring | rewrite IH; ring]. Qed.
Lemma node_power : forall t, every (good z x (fst q) (snd q)) t -> Cn2 (za z x t) = below t.
Proof.
  induction t as [r | nd A IHA B IHB]; intros H; [unfold below; cbn; ring |]. destruct H as ((Hn & _ & _) & HA & HB).
  pose proof (quad_unit_power _ (zp_quad p (node_id nd)) (za z x A) (za z x B)) as E. unfold qtop, qbot in E. cbn [t11 t12 t21 t22] in E.
  rewrite Hn, Cn2_C0, IHA, IHB in E by assumption. unfold below in *. cbn [leaves za]. rewrite below_app. lra.
Qed.
Lemma below_pos : forall t, (forall r, In r (leaves t) -> 0 < Cn2 (x r)) -> 0 < below t.
Proof.
  induction t as [r | nd A IHA B IHB]; intro H; unfold below in *; cbn [leaves] in *.
  - specialize (H r (or_introl eq_refl)). cbn. lra.
  - rewrite below_app. assert (K1 : 0 < fold_right Rplus 0 (map (fun r => Cn2 (x r)) (leaves A))) by (apply IHA; intros; apply H, in_or_app; auto).
    assert (K2 : 0 < fold_right Rplus 0 (map (fun r => Cn2 (x r)) (leaves B))) by (apply IHB; intros; apply H, in_or_app; auto). lra.
Qed.
Lemma some_wrong : (3 <= n)%nat -> (forall r, (r < n)%nat -> x r <> C0) ->
  exists i j, (i < n - 1)%nat /\ (j < n - 1)%nat /\ hu (fst q) (snd q) T (false, i) (true, j) <> hu (fst q) (snd q) T (true, i) (false, j).
Proof.
  intros Hn Hx. pose proof (pr_good _ _ _ _ _ _ _ P) as Hg. pose proof (pr_nd _ _ _ _ _ _ _ P) as Hnd. pose proof (pr_in _ _ _ _ _ _ _ P) as Hin.
  assert (Hp : forall r, In r (leaves T) -> 0 < Cn2 (x r)).
  { intros r Hr. rewrite (pr_leaves _ _ _ _ _ _ _ P) in Hr. apply in_seq in Hr. apply Cn2_pos, Hx. lia. }
  revert Hg Hnd Hin Hp. generalize T. clear P. intros t Hg Hnd Hin Hp.
  destruct t as [r | nd A B]; [exfalso; apply (proj2 (Hin 0%nat)); lia |].
  rewrite ids_nd in Hnd. apply NoDup_cons_iff in Hnd. destruct Hnd as [Hk Hd].
  destruct Hg as ((Hn0 & Hpn & Hsn) & HA & HB).
  destruct B as [r | nd' B1 B2]; [destruct A as [r' | nd' A1 A2] |].
  - exfalso. assert (H0 : In 0%nat (ids (Nd nd (Lf r') (Lf r)))) by (apply Hin; lia). assert (H1 : In 1%nat (ids (Nd nd (Lf r') (Lf r)))) by (apply Hin; lia).
    cbn in H0, H1. destruct H0 as [H0 | []]. destruct H1 as [H1 | []]. lia.
  - exists (node_id nd'), (node_id nd).
    assert (I1 : In (node_id nd') (ids (Nd nd' A1 A2))) by (rewrite ids_nd; left; reflexivity).
    assert (Ne : node_id nd' <> node_id nd) by (intro K; apply Hk; rewrite <- K; apply in_or_app; left; exact I1).
    split; [apply Hin; rewrite ids_nd; right; apply in_or_app; auto |]. split; [apply Hin; rewrite ids_nd; left; reflexivity |].
    assert (D1 : tdesc (Nd nd (Nd nd' A1 A2) (Lf r)) (node_id nd') (node_id nd) = false).
    { apply tdesc_anti; [rewrite ids_nd; constructor; assumption |]. cbn [tdesc]. rewrite Nat.eqb_refl, mem_in; [reflexivity | apply in_or_app; auto]. }
    assert (D2 : tdesc (Nd nd (Nd nd' A1 A2) (Lf r)) (node_id nd) (node_id nd') = true).
    { cbn [tdesc]. rewrite Nat.eqb_refl, mem_in; [reflexivity | apply in_or_app; auto]. }
    assert (D3 : ttop (Nd nd (Nd nd' A1 A2) (Lf r)) (node_id nd) (node_id nd') = true).
    { cbn [ttop]. rewrite Nat.eqb_refl, mem_in; [reflexivity | exact I1]. }
    unfold hu, lift. cbn [fst snd]. replace (Nat.eqb (node_id nd') (node_id nd)) with false by (symmetry; apply Nat.eqb_neq; exact Ne).
    rewrite D1, D2, D3. unfold wt. cbn [fst snd]. destruct HA as ((G1 & G2 & G3) & HA1 & HA2).
    rewrite <- G2, <- G3, (node_power A1 HA1), (node_power (Nd nd' A1 A2)) by (repeat split; assumption).
    unfold below at 1. cbn [leaves]. rewrite below_app. fold (below A1). fold (below A2).
    assert (0 < below A2) by (apply below_pos; intros; apply Hp; cbn; apply in_or_app; left; apply in_or_app; auto). lra.
  - exists (node_id nd), (node_id nd').
    assert (I1 : In (node_id nd') (ids (Nd nd' B1 B2))) by (rewrite ids_nd; left; reflexivity).
    assert (Ne : node_id nd' <> node_id nd) by (intro K; apply Hk; rewrite <- K; apply in_or_app; right; exact I1).
    split; [apply Hin; rewrite ids_nd; left; reflexivity |]. split; [apply Hin; rewrite ids_nd; right; apply in_or_app; auto |].
    assert (D2 : tdesc (Nd nd A (Nd nd' B1 B2)) (node_id nd) (node_id nd') = true).
    { cbn [tdesc]. rewrite Nat.eqb_refl, mem_in; [reflexivity | apply in_or_app; auto]. }
    assert (D3 : ttop (Nd nd A (Nd nd' B1 B2)) (node_id nd) (node_id nd') = false).
    { assert (NA : ~ In (node_id nd') (ids A)) by (intro K; apply (nodup_app_disj _ _ _ _ Hd K I1)).
      change ((Nat.eqb (node_id nd) (node_id nd) && mem (node_id nd') (ids A) || ttop A (node_id nd) (node_id nd') || ttop (Nd nd' B1 B2) (node_id nd) (node_id nd'))%bool = false).
      rewrite mem_out, (ttop_out2 A), ttop_out1; [rewrite andb_false_r; reflexivity | | exact NA | exact NA]. intro K. apply Hk. apply in_or_app. auto. }
    unfold hu, lift. cbn [fst snd]. replace (Nat.eqb (node_id nd) (node_id nd')) with false by (symmetry; apply Nat.eqb_neq; congruence).
    rewrite D2, D3. unfold wt. cbn [fst snd]. destruct HB as ((G1 & G2 & G3) & HB1 & HB2).
    rewrite <- G3, (node_power B1 HB1).
    assert (0 < below B1) by (apply below_pos; intros; apply Hp; cbn; apply in_or_app; right; apply in_or_app; auto). lra.
Qed.
End partials.
