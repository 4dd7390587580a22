(** Counterexamples around in-situ backpropagation. *)
From Coq Require Import Reals Lra Lia List ZArith Permutation Bool FunctionalExtensionality.
From Verif Require Import Cx Arr Spec_circuit Model_coupling Model_forward Model_vector Model_insitu Spec_mesh Spec_insitu
  Proof_node Proof_mesh Proof_forward Proof_forward2 Proof_forward3 Proof_forward4 Proof_tree Proof_vector Proof_vector2 Proof_order Proof_insitu Proof_insitu2 Proof_insitu3.
Import ListNotations.
Local Open Scope R_scope.

Definition M3 : mesh := mkMesh [plain_node 0 3 0 2 2 1 1; plain_node 1 3 1 2 1 1 0] TOP [0%nat; 1%nat] 3 [(0,0);(0,0)] [(0,0);(0,0)] [1%Z; 0%Z] 2.
Lemma M3_tree : tree 3 3 true TOP = Some M3.
Proof. reflexivity. Qed.
Lemma M3_clean : clean M3.
Proof.
  destruct (tree_balanced 3 3 TOP ltac:(lia) ltac:(lia)) as (m & E & Hs & Hn & _ & _ & _ & _ & Hl & Hb & Hlo & Hw).
  rewrite M3_tree in E. apply Some_inj in E. subst m. constructor; auto.
  - intros e [<- | [<- | []]]; reflexivity.
  - intros e [<- | [<- | []]]; reflexivity.
Qed.
Lemma M3_columns : columns M3 = Some [mkMesh [plain_node 1 3 1 2 1 1 0] TOP [1%nat] 3 [(0,0)] [(0,0)] [0%Z] 1; mkMesh [plain_node 0 3 0 2 2 1 1] TOP [0%nat] 3 [(0,0)] [(0,0)] [1%Z] 2].
Proof. reflexivity. Qed.
Lemma M3_fn : forall p x, matrix_fn M3 false p x = Some (apply_gammas (gammas p)
  (run [(parallel_mzi TOP false (thetas p 1%nat) (phis p 1%nat) (0,0) (0,0), 1%nat, 2%nat);
        (parallel_mzi TOP false (thetas p 0%nat) (phis p 0%nat) (0,0) (0,0), 0%nat, 2%nat)] x)).
Proof.
  intros p x. destruct (wf_matrix_total M3 false p x (cl_wf _ M3_clean)) as (y & E). rewrite E. f_equal.
  destruct (matrix_fn_run M3 false p x y (proj1 (cl_wf _ M3_clean)) E) as (cols & Hc & _ & ->).
  rewrite M3_columns in Hc. apply Some_inj in Hc. subst cols. reflexivity.
Qed.

Lemma cs45 : forall e, e = 0 -> cos (PI / 4 + e) * sin (PI / 4 + e) = 1 / 2 /\ cos (PI/4 + e) * cos (PI/4 + e) = 1/2 /\ sin (PI/4+e) * sin (PI/4+e) = 1/2.
Proof.
  intros e ->. rewrite Rplus_0_r, cos_PI4, sin_PI4. pose proof (sqrt_sqrt 2 ltac:(lra)) as H.
  assert (H2 : sqrt 2 <> 0) by (pose proof (sqrt_lt_R0 2 ltac:(lra)); lra).
  assert (E : 1 / sqrt 2 * (1 / sqrt 2) = 1 / 2) by (replace 2 with (sqrt 2 * sqrt 2) at 3 by exact H; field; auto).
  auto.
Qed.
Lemma mzi11_re : forall th, re (t11 (parallel_mzi TOP false th 0 (0,0) (0,0))) = (cos th - 1) / 2.
Proof.
  intro th. unfold parallel_mzi, mzi_terms. cbn [fst snd t11].
  destruct (cs45 0 eq_refl) as (_ & H1 & H2).
  unfold Cexp. cbn -[cos sin exp ln PI]. replace (ln 10 * 0 / 20) with 0 by field. rewrite exp_0, cos_0, sin_0.
  rewrite H1, H2. field.
Qed.

Lemma order_witness : exists p x g th ph ga a, tree 3 3 true TOP = Some M3 /\ in_situ_bwd M3 p x g = Some (th, ph, ga, a) /\
  ~ derivable_pt_lim (fun t => cost M3 g x (with_theta p 0 t)) (thetas p 0%nat) (nth 0 th 0).
Proof.
  set (p := mkParams (fun _ => PI / 2) (fun _ => 0) (fun _ => 0)). set (x := basis 1).
  assert (Hp : power (n_rails M3) x = 1) by (unfold power, x, basis; cbn; unfold Cn2; cbn; ring).
  destruct (insitu_grad M3 p x x M3_clean ltac:(lra) ltac:(lra)) as (th & ph & ga & a & E & Ht & _).
  exists p, x, x, th, ph, ga, a. split; [apply M3_tree |]. split; auto. intro Hd.
  assert (Hc : forall q, phis q 1%nat = 0 -> gammas q 1%nat = 0 -> cost M3 x x q = (cos (thetas q 1%nat) - 1) / 2).
  { intros q H1 H2. unfold cost. rewrite M3_fn. rewrite H1, <- mzi11_re. rewrite !run_cons.
    set (Q := parallel_mzi TOP false (thetas q 1%nat) 0 (0,0) (0,0)). 
    rewrite (Csum_ext _ _ (fun i => delta 1 i * (apply_gammas (gammas q) (run [] (apply_op (parallel_mzi TOP false (thetas q 0%nat) (phis q 0%nat) (0, 0) (0, 0), 0%nat, 2%nat) (apply_op (Q, 1%nat, 2%nat) x)))) i))%C.
    2: intros i Hi; unfold x at 1, basis, delta; rewrite (Nat.eqb_sym i); reflexivity.
    rewrite Csum_delta_l by (cbn; lia). unfold apply_gammas. rewrite H2, cis_0. cbn [run fold_left].
    unfold apply_op at 1. rewrite !upd_neq by lia. rewrite apply_op_top by lia. unfold qtop, x, basis. cbn [Nat.eqb].
    destruct (t11 Q), (t12 Q). cbn. ring. }
  change (column_order M3) with [plain_node 1 3 1 2 1 1 0; plain_node 0 3 0 2 2 1 1] in Ht.
  inversion Ht as [| nd d1 l l' Hd1 _]; subst. cbn [nth] in Hd. cbn [node_id plain_node] in Hd1.
  assert (E1 : d1 = - / 2).
  { apply (uniqueness_limite _ _ _ _ Hd1).
    replace (fun t => cost M3 x x (with_theta p 1 t)) with (mult_real_fct (/2) (minus_fct cos (fct_cte 1))).
    2: { apply functional_extensionality. intro t. rewrite Hc by reflexivity. unfold with_theta. cbn [thetas]. rewrite upd_eq. unfold mult_real_fct, minus_fct, fct_cte. field. }
    replace (- / 2) with (/ 2 * (- sin (PI / 2) - 0)) by (rewrite sin_PI2; field).
    apply derivable_pt_lim_scal, derivable_pt_lim_minus; [apply derivable_pt_lim_cos | apply derivable_pt_lim_const]. }
  assert (E2 : d1 = 0).
  { apply (uniqueness_limite _ _ _ _ Hd).
    replace (fun t => cost M3 x x (with_theta p 0 t)) with (fct_cte ((cos (PI / 2) - 1) / 2)).
    2: { apply functional_extensionality. intro t. rewrite Hc by reflexivity. reflexivity. }
    apply derivable_pt_lim_const. }
  lra.
Qed.

(** BOTTOM: the shifters are on the bottom rail, the taps on the top rail. *)
Lemma bottom_witness : exists p x g th ph ga a, let m := mesh1 BOTTOM (0, 0) (0, 0) in
  in_situ_bwd m p x g = Some (th, ph, ga, a) /\
  derivable_pt_lim (fun t => cost m g x (with_phi p 0 t)) (phis p 0%nat) 0 /\ nth 0 ph 0 = 1 / 2.
Proof.
  set (p := mkParams (fun _ => PI / 2) (fun _ => 0) (fun _ => 0)). set (x := basis 0).
  set (m := mesh1 BOTTOM (0, 0) (0, 0)).
  assert (Hp : vnorm (n_rails m) x = 1) by (unfold vnorm, power, x, basis; cbn; unfold Cn2; cbn; replace (_ + _) with 1 by ring; apply sqrt_1).
  assert (Hx : vscal (/ 1) x = x).
  { apply functional_extensionality. intro i. unfold vscal. destruct (x i). apply C_eq; cbn; field. }
  assert (Ea : exists a, matrix_fn m true p x = Some a /\ a 0%nat = mkC (1/2) (- (1/2))).
  { destruct (wf_matrix_total m true p x (mesh1_wf _ _ _)) as (a & E). exists a. split; auto.
    destruct (matrix_fn_run m true p x a (proj1 (mesh1_wf _ _ _)) E) as (cols & Hc & _ & ->).
    unfold m in Hc. rewrite mesh1_columns in Hc. apply Some_inj in Hc. subst cols.
    change (mesh_ops m true p [mesh1 BOTTOM (0,0) (0,0)]) with [(parallel_mzi BOTTOM true (PI / 2) 0 (0,0) (0,0), 0%nat, 1%nat)].
    rewrite run_cons. change (run [] ?v) with v. rewrite apply_op_top by lia.
    unfold qtop, apply_gammas, x, basis. cbn [Nat.eqb gammas p]. rewrite cis_0.
    unfold parallel_mzi, mzi_terms. cbn [fst snd t11 t12].
    destruct (cs45 0 eq_refl) as (_ & H1 & H2). unfold Cexp. replace (ln 10 * 0 / 20) with 0 by field.
    apply C_eq; cbn -[cos sin exp ln PI]; rewrite H1, H2, exp_0, cos_PI2, sin_PI2; field. }
  destruct Ea as (a & Ea & Ha).
  assert (Hprop : forall v, exists rest, propagate m false true p v = Some (v :: rest)).
  { intro v. unfold propagate. change (columns m) with (Some [m]). cbn [obind]. 
    change (forallb _ _) with true. cbn iota.
    cbn [map prop_explicit]. eexists. reflexivity. }
  exists p, x, x. unfold in_situ_bwd. fold m. rewrite Hp, Hx, Ea. cbn [obind].
  destruct (Hprop (vaxpy x (- Ci)%C (vconj a))) as (r1 & ->). cbn [obind].
  destruct (Hprop (vaxpy x Ci (vconj a))) as (r2 & ->). cbn [obind].
  change (columns m) with (Some [m]). cbn [obind].
  eexists _, _, _, a. split; [unfold localize; reflexivity |]. split.
  - replace (fun t => cost m x x (with_phi p 0 t)) with (fct_cte (1 / 2)).
    2: { apply functional_extensionality. intro t. unfold cost, m. rewrite mesh1_fn. cbn [with_phi thetas phis gammas p].
         rewrite upd_eq. unfold fct_cte. cbn [n_rails mesh1 Csum]. unfold apply_gammas. rewrite apply_op_top by lia.
         unfold x, basis at 1. cbn [Nat.eqb]. unfold basis at 1. cbn [Nat.eqb]. unfold qtop, basis. cbn [Nat.eqb].
         rewrite cis_0. unfold parallel_mzi, mzi_terms. cbn [fst snd t11 t12].
         destruct (cs45 0 eq_refl) as (_ & H1 & H2). unfold Cexp. replace (ln 10 * 0 / 20) with 0 by field.
         cbn -[cos sin exp ln PI]; rewrite H1, H2, exp_0, cos_PI2, sin_PI2; field. }
    apply derivable_pt_lim_const.
  - change (nth 0 _ 0) with (tap 1 1 (vaxpy x (- Ci)%C (vconj a) 0%nat) (vaxpy x Ci (vconj a) 0%nat)).
    unfold tap, vaxpy, vconj. rewrite meas_im, Ha. unfold x, basis. cbn. field.
Qed.
Lemma bottom_style : exists m p x g th ph ga a, mk_mesh [mkNode 0 (0,0) (0,0) 2 0 1 1 1 0] BOTTOM = Some m /\
  in_situ_bwd m p x g = Some (th, ph, ga, a) /\
  derivable_pt_lim (fun t => cost m g x (with_phi p 0 t)) (phis p 0%nat) 0 /\ nth 0 ph 0 = 1 / 2.
Proof.
  exists (mesh1 BOTTOM (0,0) (0,0)). destruct bottom_witness as (p & x & g & th & ph & ga & a & H).
  exists p, x, g, th, ph, ga, a. split; [reflexivity | exact H].
Qed.
Lemma M3_example : exists m, tree 3 3 true TOP = Some m /\ wf_mesh m /\ style m = TOP /\
  (forall e, In e (bs_errors m) -> e = (0, 0)) /\ (forall l, In l (losses m) -> l = (0, 0)) /\ 0 < power (n_rails m) (basis 1).
Proof.
  exists M3. split; [apply M3_tree |]. destruct M3_clean as [H1 H2 H3 H4]. split; [exact H1 |]. split; [exact H2 |]. split; [exact H3 |]. split; [exact H4 |].
  assert (Hp : power (n_rails M3) (basis 1) = 1) by (unfold power, basis; cbn; unfold Cn2; cbn; ring). lra.
Qed.
Lemma cotangent_witness : exists m p x g th ph ga a, tree 3 3 true TOP = Some m /\
  in_situ_bwd m p x g = Some (th, ph, ga, a) /\
  exists y, matrix_fn m false p x = Some y /\ Csum 3 (fun i => a i * x i)%C <> Csum 3 (fun i => g i * y i)%C.
Proof.
  set (p := mkParams (fun _ => PI) (fun _ => 0) (fun _ => 0)). set (x := basis 1). set (g := fun i => (RtoC 2 * basis 1 i)%C).
  assert (Hp : power (n_rails M3) x = 1) by (unfold power, x, basis; cbn; unfold Cn2; cbn; ring).
  assert (Hg : power (n_rails M3) g = 2 * 2) by (unfold power, g, basis; cbn; unfold Cn2; cbn; ring).
  destruct (insitu_grad M3 p x g M3_clean ltac:(lra) ltac:(lra)) as (th & ph & ga & a & E & _ & _ & _ & Ha).
  exists M3, p, x, g, th, ph, ga, a. split; [apply M3_tree |]. split; auto.
  eexists. split; [apply M3_fn |]. intro H.
  specialize (Ha x _ (M3_fn p x)). change (n_rails M3) with 3%nat in Ha. rewrite <- H in Ha.
  change (n_rails M3) with 3%nat in Hg. rewrite Hg, sqrt_square in Ha by lra.
  set (z := Csum 3 (fun i => a i * x i)%C) in *.
  assert (Hz : z = RtoC (-2)).
  { rewrite H.
    set (Y := apply_gammas _ _). assert (HY : Y 1%nat = t11 (parallel_mzi TOP false PI 0 (0,0) (0,0))).
    { unfold Y, apply_gammas. change (gammas p 1%nat) with 0. rewrite cis_0. rewrite !run_cons. cbn [run fold_left].
      unfold apply_op at 1. rewrite !upd_neq by lia. rewrite apply_op_top by lia. unfold qtop, x, basis. cbn [Nat.eqb].
      change (thetas p 1%nat) with PI. change (phis p 1%nat) with 0. generalize (parallel_mzi TOP false PI 0 (0,0) (0,0)). intros [[q1 q2] [q3 q4] q5 q6]. apply C_eq; cbn; ring. }
    cbn [Csum]. unfold g, basis. cbn [Nat.eqb]. rewrite HY. clear HY H. clearbody Y.
    replace (t11 (parallel_mzi TOP false PI 0 (0, 0) (0, 0))) with (RtoC (-1)).
    - destruct (Y 0%nat), (Y 2%nat). apply C_eq; cbn; ring.
    - unfold parallel_mzi, mzi_terms. cbn [fst snd t11].
      destruct (cs45 0 eq_refl) as (_ & H1 & H2). unfold Cexp. replace (ln 10 * 0 / 20) with 0 by field.
      apply C_eq; cbn -[cos sin exp ln PI]; rewrite H1, H2, exp_0, cos_PI, sin_PI, cos_0, sin_0; field. }
  rewrite Hz in Ha. apply (f_equal re) in Ha. cbn in Ha. lra.
Qed.
