(** Node unitarity, other node matrices, counterexamples. *)
From Coq Require Import Reals Lra Lia Psatz List ZArith Permutation Bool FunctionalExtensionality.
From Verif Require Import Cx Arr Spec_circuit Model_coupling Model_forward Spec_mesh Proof_node Proof_mesh Proof_forward Proof_forward2 Proof_forward3.
Import ListNotations.
Local Open Scope R_scope.

Lemma Some_inj : forall (A : Type) (x y : A), Some x = Some y -> x = y.
Proof. intros A x y H; injection H; auto. Qed.

(** A 2x2 record as a matrix. *)
Definition of_mat2 (a : mat2) : mat := fun i j =>
  match i, j with O, O => m11 a | O, _ => m12 a | _, O => m21 a | _, _ => m22 a end.

Lemma embed_entry : forall n q t b i j, ok n (q, t, b) -> (i < n)%nat -> (j < n)%nat ->
  embed_2x2 (mat2_of_quad q) n t b i j = run [(q, t, b)] (basis j) i.
Proof.
  intros n q t b i j Hok Hi Hj. change (run [(q, t, b)] (basis j)) with (apply_op (q, t, b) (basis j)).
  rewrite <- (embed_app n q t b (basis j) Hok i Hi). unfold app.
  symmetry. apply (Csum_basis n j (fun k => embed_2x2 (mat2_of_quad q) n t b i k) Hj).
Qed.
Lemma unitary_meq : forall n A B, meq n A B -> unitary n A -> unitary n B.
Proof.
  intros n A B H HA i j Hi Hj. destruct (HA i j Hi Hj) as [H1 H2]. split.
  - rewrite <- H1. apply Csum_ext; intros. rewrite !H; auto.
  - rewrite <- H2. apply Csum_ext; intros. rewrite !H; auto.
Qed.
Lemma embed_unitary : forall n q t b, ok n (q, t, b) -> quad_unit q ->
  unitary n (embed_2x2 (mat2_of_quad q) n t b).
Proof.
  intros n q t b Hok Hq. apply (unitary_meq n (fun i j => run [(q, t, b)] (basis j) i)).
  - intros i j Hi Hj. symmetry. apply embed_entry; auto.
  - apply run_unitary; repeat constructor; auto; apply Hok.
Qed.
Lemma embed_2 : forall a, meq 2 (embed_2x2 a 2 0 1) (of_mat2 a).
Proof.
  intros a i j Hi Hj. destruct i as [| [| i]]; destruct j as [| [| j]]; try lia; reflexivity.
Qed.

Lemma node_unit_quad : forall nd theta phi, loss nd = (0, 0) ->
  mzi_node_matrix2 nd theta phi = mat2_of_quad (parallel_mzi TOP false theta phi (bs_error nd) (0, 0)).
Proof. intros nd theta phi H. rewrite <- parallel_mzi_node by (rewrite H; auto). rewrite H. reflexivity. Qed.

Lemma node_unitary2 : forall nd theta phi, loss nd = (0, 0) -> unitary 2 (of_mat2 (mzi_node_matrix2 nd theta phi)).
Proof.
  intros. apply (unitary_meq 2 _ _ (embed_2 _)). rewrite node_unit_quad by auto.
  apply embed_unitary; [simpl; lia | apply parallel_mzi_unit].
Qed.
Lemma node_unitary : forall nd theta phi, loss nd = (0, 0) ->
  (top nd < n_of nd)%nat -> (bottom nd < n_of nd)%nat -> top nd <> bottom nd ->
  unitary (n_of nd) (mzi_node_matrix nd theta phi).
Proof.
  intros. unfold mzi_node_matrix. rewrite node_unit_quad by auto.
  apply embed_unitary; [simpl; auto | apply parallel_mzi_unit].
Qed.
Lemma embed_elsewhere : forall m n t b i j, i <> t -> i <> b \/ False -> embed_2x2 m n t b i j = delta i j.
Proof.
  intros m n t b i j H1 [H2 | []]. unfold embed_2x2, upd2.
  destruct (Nat.eqb_spec i b); [congruence |]. destruct (Nat.eqb_spec i t); [congruence |]. reflexivity.
Qed.
Lemma embed_elsewhere_col : forall m n t b i j, j <> t -> j <> b -> embed_2x2 m n t b i j = delta i j.
Proof.
  intros m n t b i j H1 H2. unfold embed_2x2, upd2.
  destruct (Nat.eqb_spec j b); [congruence |]. destruct (Nat.eqb_spec j t); [congruence |].
  rewrite !andb_false_r. reflexivity.
Qed.

Lemma ideal_quad : forall s phi, 0 <= s <= 1 ->
  quad_unit (mkQuad (m11 (ideal_node2 s phi)) (m21 (ideal_node2 s phi)) (m12 (ideal_node2 s phi)) (m22 (ideal_node2 s phi))).
Proof.
  intros s phi [H0 H1] x y x' y'.
  unfold qtop, qbot, ideal_node2, mul2, phase_matrix, coupling_matrix_s; cbn [t11 t12 t21 t22 m11 m12 m21 m22].
  rewrite cis_0.
  assert (Ha : sqrt (1 - s) * sqrt (1 - s) + sqrt s * sqrt s = 1) by (rewrite !sqrt_sqrt; lra).
  set (a := sqrt (1 - s)) in *; set (b := sqrt s) in *.
  assert (E : (cis phi * Cconj (cis phi))%C = C1) by apply cis_conj_r.
  assert (HaC : (RtoC a * RtoC a + RtoC b * RtoC b)%C = C1) by (rewrite <- !RtoC_mul, <- RtoC_add, Ha; reflexivity).
  rewrite ?Cconj_add, ?Cconj_mul, ?Cconj_add, ?Cconj_mul, ?RtoC_opp, ?Cconj_opp, ?Cconj_RtoC, ?Cconj_C0, ?Cconj_C1, ?Cconj_RtoC.
  transitivity ((RtoC a * RtoC a * (cis phi * Cconj (cis phi)) + RtoC b * RtoC b) * (Cconj x * x')
    + (RtoC b * RtoC b * (cis phi * Cconj (cis phi)) + RtoC a * RtoC a) * (Cconj y * y')
    + (RtoC a * RtoC b * (cis phi * Cconj (cis phi)) - RtoC a * RtoC b) * (Cconj x * y' + Cconj y * x'))%C; [ring |].
  rewrite E.
  transitivity ((RtoC a * RtoC a + RtoC b * RtoC b) * (Cconj x * x' + Cconj y * y'))%C; [ring |].
  rewrite HaC; ring.
Qed.
Lemma ideal_unitary : forall nd s phi, 0 <= s <= 1 ->
  (top nd < n_of nd)%nat -> (bottom nd < n_of nd)%nat -> top nd <> bottom nd ->
  unitary (n_of nd) (ideal_node nd s phi).
Proof.
  intros nd s phi Hs Ht Hb Htb. unfold ideal_node.
  pose proof (embed_unitary (n_of nd) _ (top nd) (bottom nd) (conj Ht (conj Hb Htb)) (ideal_quad s phi Hs)) as H.
  unfold mat2_of_quad in H; cbn [t11 t12 t21 t22] in H. destruct (ideal_node2 s phi); exact H.
Qed.

(** ** Single-node meshes *)
Definition node1 (err ls : R * R) : node := mkNode 0 ls err 2 0 1 1 1 0.
Definition mesh1 (s : phase_style) (err ls : R * R) : mesh :=
  mkMesh [node1 err ls] s [0%nat] 2 [err] [ls] [0%Z] 1.
Lemma mesh1_made : forall s err ls, mk_mesh [node1 err ls] s = Some (mesh1 s err ls).
Proof. reflexivity. Qed.
Lemma mesh1_wf : forall s err ls, wf_mesh (mesh1 s err ls).
Proof.
  intros. repeat split.
  - intro c. cbn [nodes mesh1 filter node1 column]. destruct (Z.eqb_spec 0 c); cbn; repeat constructor; simpl; intuition discriminate.
  - destruct H as [<- | []]; simpl; lia.
  - destruct H as [<- | []]; simpl; lia.
  - destruct H as [<- | []]; simpl; lia.
  - simpl. repeat constructor; auto.
  - intros c Hc. exists (node1 err ls). split; [left; auto |]. cbn in *. lia.
Qed.
Lemma mesh1_columns : forall s err ls, columns (mesh1 s err ls) = Some [mesh1 s err ls].
Proof. reflexivity. Qed.
Lemma mesh1_matrix : forall s err ls back p i j, matrix (mesh1 s err ls) back p i j =
  Some ((if back then fun v => v else apply_gammas (gammas p))
    (apply_op (parallel_mzi s back (thetas p 0) (phis p 0) err ls, 0%nat, 1%nat)
       ((if back then apply_gammas (gammas p) else fun v => v) (basis j))) i).
Proof.
  intros. unfold matrix, matrix_fn. rewrite mesh1_columns.
  destruct back; cbn -[parallel_transform parallel_mzi mzis apply_gammas apply_op];
    rewrite parallel_transform_run by (repeat constructor; simpl; intuition discriminate); reflexivity.
Qed.

Definition pconst (theta phi : R) : params := mkParams (fun _ => theta) (fun _ => phi) (fun _ => 0).
Lemma gammas0 : forall v t f, apply_gammas (gammas (pconst t f)) v = v.
Proof. intros. apply functional_extensionality; intro. unfold apply_gammas; simpl. rewrite cis_0. ring. Qed.
Lemma mesh1_entries : forall s err ls back theta phi,
  matrix (mesh1 s err ls) back (pconst theta phi) 0 0 = Some (t11 (parallel_mzi s back theta phi err ls)) /\
  matrix (mesh1 s err ls) back (pconst theta phi) 0 1 = Some (t21 (parallel_mzi s back theta phi err ls)) /\
  matrix (mesh1 s err ls) back (pconst theta phi) 1 0 = Some (t12 (parallel_mzi s back theta phi err ls)) /\
  matrix (mesh1 s err ls) back (pconst theta phi) 1 1 = Some (t22 (parallel_mzi s back theta phi err ls)).
Proof.
  intros. rewrite !mesh1_matrix. destruct back; rewrite !gammas0; rewrite !apply_op_bot, !apply_op_top by auto;
   unfold qtop, qbot, basis, delta; cbn [Nat.eqb]; cbn [thetas phis pconst]; repeat split; f_equal; ring.
Qed.

(** ** C02: a loss on the right coupler *)
Lemma right_loss_mismatch : exists err ls, fst ls <= 0 /\ snd ls <= 0 /\
  matrix (mesh1 TOP err ls) false (pconst 0 0) 1 0 <>
  Some (mzi_node_matrix (node1 err ls) 0 0 1%nat 0%nat).
Proof.
  exists (0, 0), (0, -20). cbn [fst snd]. split; [lra |]. split; [lra |].
  rewrite (proj1 (proj2 (proj2 (mesh1_entries TOP (0,0) (0,-20) false 0 0)))).
  intro E. apply Some_inj in E. apply (f_equal im) in E.
  unfold mzi_node_matrix, embed_2x2, upd2, mzi_node_matrix2, dc, sel, mul2, phase_matrix, mzi_terms, loss2insertion in E.
  cbn in E. rewrite ?Rplus_0_r, ?sin_PI4, ?cos_PI4, ?sin_0, ?cos_0 in E.
  replace (ln 10 * -20 / 20 * (1 - 0)) with (- ln 10) in E by field.
  replace (ln 10 * 0 / 20) with 0 in E by field. replace (ln 10 * 0 / 10) with 0 in E by field.
  rewrite exp_Ropp, exp_ln in E by lra.
  replace (0 * (1 - 0)) with 0 in E by ring. rewrite exp_0, sqrt_1, ?sin_0, ?cos_0 in E.
  assert (Hs : (1 / sqrt 2) * (1 / sqrt 2) = 1 / 2).
  { replace (1 / sqrt 2 * (1 / sqrt 2)) with (1 / (sqrt 2 * sqrt 2)) by (field; apply Rgt_not_eq, sqrt_lt_R0; lra).
    rewrite sqrt_sqrt by lra. lra. }
  nra.
Qed.

(** ** C06 *)
Lemma back_differential_mismatch :
  matrix (mesh1 DIFFERENTIAL (0,0) (0,0)) true (pconst PI PI) 1 1 <>
  matrix (mesh1 DIFFERENTIAL (0,0) (0,0)) false (pconst PI PI) 1 1.
Proof.
  rewrite !(proj2 (proj2 (proj2 (mesh1_entries DIFFERENTIAL (0,0) (0,0) _ PI PI)))).
  intro E. apply Some_inj in E. revert E.
  unfold parallel_mzi, mzi_terms. cbn [fst snd t22 b2R]. rewrite ?Rplus_0_r, ?sin_PI4, ?cos_PI4.
  replace (ln 10 * 0 / 20) with 0 by field.
  replace ((PI - PI) / 2 - PI * 1) with (- PI) by field. replace ((PI - PI) / 2 - PI * 0) with 0 by field.
  rewrite !Cexp_imag, cis_0, cis_opp, cis_PI.
  assert (Hs : (1 / sqrt 2) * (1 / sqrt 2) = 1 / 2).
  { replace (1 / sqrt 2 * (1 / sqrt 2)) with (1 / (sqrt 2 * sqrt 2)) by (field; apply Rgt_not_eq, sqrt_lt_R0; lra).
    rewrite sqrt_sqrt by lra. lra. }
  rewrite Hs. intro E. apply (f_equal re) in E. simpl in E. lra.
Qed.
Lemma back_errors_mismatch :
  matrix (mesh1 TOP (0, PI / 4) (0,0)) true (pconst PI 0) 0 1 <>
  matrix (mesh1 TOP (0, PI / 4) (0,0)) false (pconst PI 0) 1 0.
Proof.
  rewrite (proj1 (proj2 (mesh1_entries TOP (0, PI/4) (0,0) true PI 0))).
  rewrite (proj1 (proj2 (proj2 (mesh1_entries TOP (0, PI/4) (0,0) false PI 0)))).
  intro E. apply Some_inj in E. revert E.
  unfold parallel_mzi, mzi_terms. cbn [fst snd t12 t21 b2R]. rewrite ?Rplus_0_r, ?sin_PI4, ?cos_PI4.
  replace (PI / 4 + PI / 4) with (PI / 2) by field. rewrite cos_PI2, sin_PI2.
  replace (ln 10 * 0 / 20) with 0 by field. rewrite !Rmult_0_l.
  rewrite !Cexp_imag, cis_0, cis_PI.
  assert (Hp : 0 < 1 / sqrt 2) by (apply Rdiv_lt_0_compat; [lra | apply sqrt_lt_R0; lra]).
  intro E. apply (f_equal im) in E. simpl in E. lra.
Qed.

(** ** C09: explicit propagation with an error on both couplers *)
Lemma explicit_error_mismatch : exists y sl,
  matrix_fn (mesh1 TOP (PI/4, PI/4) (0,0)) false (pconst 0 0) (basis 0) = Some y /\
  propagate (mesh1 TOP (PI/4, PI/4) (0,0)) false true (pconst 0 0) (basis 0) = Some sl /\
  last sl (basis 0) 0%nat <> y 0%nat.
Proof.
  set (m := mesh1 TOP (PI/4, PI/4) (0,0)).
  assert (Hwf : wf_mesh m) by apply mesh1_wf.
  destruct (wf_matrix_total m false (pconst 0 0) (basis 0) Hwf) as [y Hy].
  pose proof (proj1 (mesh1_entries TOP (PI/4, PI/4) (0,0) false 0 0)) as E0.
  fold m in E0. unfold matrix in E0. rewrite Hy in E0. apply Some_inj in E0; rename E0 into E1.
  assert (Hnd : NoDup (rails [(0%nat, 1%nat, 0%nat)])) by (repeat constructor; simpl; intuition discriminate).
  destruct (prop_explicit_last TOP false (pconst 0 0) (fun k => parallel_dc false (err_at m k) (loss_at m k))
    (fun k => parallel_dc true (err_at m k) (loss_at m k)) [[(0%nat,1%nat,0%nat)]] (basis 0))
    as (sl & Es & _ & El); [auto | constructor; auto |].
  exists y, ([basis 0] ++ sl ++ [apply_gammas (gammas (pconst 0 0)) (last sl (basis 0))]).
  split; [exact Hy |]. split.
  - unfold propagate. unfold m at 1. rewrite mesh1_columns. fold m.
    change (obind (prop_explicit TOP false (pconst 0 0) (fun k => parallel_dc false (err_at m k) (loss_at m k))
        (fun k => parallel_dc true (err_at m k) (loss_at m k)) [[(0%nat,1%nat,0%nat)]] (basis 0))
        (fun sl => Some ([basis 0] ++ sl ++ [apply_gammas (gammas (pconst 0 0)) (last sl (basis 0))])) = 
      Some ([basis 0] ++ sl ++ [apply_gammas (gammas (pconst 0 0)) (last sl (basis 0))])).
    rewrite Es. reflexivity.
  - rewrite !app_assoc, last_app_single, gammas0, El. cbn [fold_left].
    rewrite (pt_top _ _ _ 0 1 0) by (auto; left; auto).
    change (qtop (qcol TOP false 0 0 (PI/4,PI/4) (0,0)) (basis 0 0%nat) (basis 0 1%nat) <> y 0%nat).
    rewrite E1, explicit_top. unfold qtop, parallel_mzi, mzi_terms, basis, delta. cbn [fst snd t11 t21 b2R Nat.eqb].
    replace (PI / 4 + - (PI / 4)) with 0 by field. replace (PI / 4 + PI / 4) with (PI / 2) by field.
    replace (ln 10 * 0 / 20) with 0 by field. rewrite sin_0, cos_0, sin_PI2, cos_PI2.
    rewrite !Cexp_imag, cis_0. intro E. apply (f_equal re) in E. simpl in E. lra.
Qed.

(** ** C26 *)
Lemma coupling_phase_not_unitary : exists theta, ~ unitary 2 (of_mat2 (coupling_matrix_phase theta 0 0)).
Proof.
  exists 0. intro H. destruct (H 1%nat 1%nat ltac:(lia) ltac:(lia)) as [_ E].
  simpl in E. unfold delta in E; simpl in E. apply (f_equal re) in E. simpl in E.
  replace (0 / 2 + 0 / 2) with 0 in E by field. rewrite sin_0 in E. lra.
Qed.

Lemma coupling_phase_unitary_iff : forall theta e, unitary 2 (of_mat2 (coupling_matrix_phase theta e 0)) <-> cos ((theta + e) / 2) = sin ((theta + e) / 2).
Proof.
  intros theta e. assert (I0 : loss2insertion 0 = 1) by (unfold loss2insertion; replace (ln 10 * 0 / 10) with 0 by field; rewrite exp_0, sqrt_1; reflexivity).
  unfold coupling_matrix_phase. rewrite I0. replace (theta / 2 + e / 2) with ((theta + e) / 2) by field.
  set (c := cos ((theta + e) / 2)). set (s := sin ((theta + e) / 2)).
  assert (P : c * c + s * s = 1) by (unfold c, s; pose proof (sin2_cos2 ((theta + e) / 2)) as Q; unfold Rsqr in Q; lra). clearbody c s. split.
  - intro H. destruct (H 1%nat 1%nat ltac:(lia) ltac:(lia)) as [E1 E2]. destruct (H 0%nat 1%nat ltac:(lia) ltac:(lia)) as [E3 E4].
    simpl in E1, E2, E3, E4. unfold delta in *; simpl in *. apply (f_equal re) in E2. apply (f_equal im) in E4. simpl in E2, E4. nra.
  - intros E i j Hi Hj. subst c. assert (i = 0 \/ i = 1)%nat as [-> | ->] by lia; assert (j = 0 \/ j = 1)%nat as [-> | ->] by lia; split; apply C_eq; simpl; lra.
Qed.
Lemma coupling_phase_top_row : forall theta e l, let m := coupling_matrix_phase theta e l in
  Cn2 (m11 m) + Cn2 (m12 m) = exp (ln 10 * l / 10) /\ Cn2 (m11 m) = exp (ln 10 * l / 10) * cos ((theta + e) / 2) ^ 2 /\
  Cn2 (m21 m) = sin ((theta + e) / 2) ^ 2 /\ Cn2 (m22 m) = sin ((theta + e) / 2) ^ 2.
Proof.
  intros theta e l m. unfold m, coupling_matrix_phase, loss2insertion. replace (theta / 2 + e / 2) with ((theta + e) / 2) by field.
  pose proof (sqrt_sqrt (exp (ln 10 * l / 10)) (Rlt_le _ _ (exp_pos _))) as Q. set (r := sqrt (exp (ln 10 * l / 10))) in *. rewrite <- Q.
  pose proof (sin2_cos2 ((theta + e) / 2)) as P. unfold Rsqr in P. set (c := cos ((theta + e) / 2)) in *. set (s := sin ((theta + e) / 2)) in *. clearbody c s r.
  unfold Cn2. simpl. split; [| split; [| split]]; [| ring | ring | ring]. replace (r * r) with (r * r * (s * s + c * c)) by (rewrite P; ring). ring.
Qed.

Lemma forall1 : forall (A : Type) (P : A -> Prop) a, P a -> Forall P [a].
Proof. intros; constructor; auto. Qed.
Lemma C06_diff_witness : exists m p i j, wf_mesh m /\ lossless m /\ equal_errors m /\
  (i < n_rails m)%nat /\ (j < n_rails m)%nat /\ matrix m true p i j <> matrix m false p j i.
Proof.
  exists (mesh1 DIFFERENTIAL (0,0) (0,0)), (pconst PI PI), 1%nat, 1%nat.
  split; [apply mesh1_wf |]. split; [apply forall1; reflexivity |]. split; [apply forall1; reflexivity |].
  split; [simpl; lia |]. split; [simpl; lia |]. exact back_differential_mismatch.
Qed.
Lemma C06_err_witness : exists m p i j, wf_mesh m /\ lossless m /\ style m = TOP /\
  (i < n_rails m)%nat /\ (j < n_rails m)%nat /\ matrix m true p i j <> matrix m false p j i.
Proof.
  exists (mesh1 TOP (0, PI/4) (0,0)), (pconst PI 0), 0%nat, 1%nat.
  split; [apply mesh1_wf |]. split; [apply forall1; reflexivity |]. split; [reflexivity |].
  split; [simpl; lia |]. split; [simpl; lia |]. exact back_errors_mismatch.
Qed.
Lemma C09_witness : exists m p x y sl, wf_mesh m /\ lossless m /\ style m = TOP /\
  matrix_fn m false p x = Some y /\ propagate m false true p x = Some sl /\ last sl x 0%nat <> y 0%nat.
Proof.
  destruct explicit_error_mismatch as (y & sl & H1 & H2 & H3).
  exists (mesh1 TOP (PI/4, PI/4) (0,0)), (pconst 0 0), (basis 0), y, sl.
  split; [apply mesh1_wf |]. split; [apply forall1; reflexivity |]. auto.
Qed.
