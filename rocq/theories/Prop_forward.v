(** Property theorems about simphox/circuit/coupling.py and forward.py. *)
From Coq Require Import Reals Lra Lia List ZArith Permutation Bool.
From Verif Require Import Cx Arr Spec_circuit Model_coupling Model_forward Spec_mesh
  Proof_node Proof_mesh Proof_forward Proof_forward2 Proof_forward3 Proof_forward4.
Import ListNotations.
Local Open Scope R_scope.

(** C01: a lossless node, any splitter errors, any phases: the 2x2 matrix is unitary, so is the embedded one, and
    the embedding is the identity on every other rail (row and column). *)
Theorem C01_node_unitary : forall nd theta phi, loss nd = (0, 0) ->
  (top nd < n_of nd)%nat -> (bottom nd < n_of nd)%nat -> top nd <> bottom nd ->
  unitary 2 (of_mat2 (mzi_node_matrix2 nd theta phi)) /\
  unitary (n_of nd) (mzi_node_matrix nd theta phi) /\
  (forall i j, i <> top nd -> i <> bottom nd -> mzi_node_matrix nd theta phi i j = ident i j) /\
  (forall i j, j <> top nd -> j <> bottom nd -> mzi_node_matrix nd theta phi i j = ident i j).
Proof.
  exact (fun nd theta phi Hl Ht Hb Htb => conj (node_unitary2 nd theta phi Hl) (conj (node_unitary nd theta phi Hl Ht Hb Htb)
   (conj (fun i j H1 H2 => embed_elsewhere _ _ _ _ i j H1 (or_introl H2))
         (fun i j => embed_elsewhere_col _ _ _ _ i j)))).
Qed.
Print Assumptions C01_node_unitary.
(** A node on rails 3 and 1 of five, with two different splitter errors. *)
Example C01_nonvacuous : let nd := mkNode 4 (0, 0) (1/10, -1/5) 5 3 1 1 1 0 in
  loss nd = (0, 0) /\ (top nd < n_of nd)%nat /\ (bottom nd < n_of nd)%nat /\ top nd <> bottom nd.
Proof. simpl; repeat split; lia. Qed.

(** C02, full statement: every mesh of style TOP is the product of its nodes' own matrices.  It is FALSE of the
    code when a node has a loss on its right coupler ([C02_right_loss_refuted]); proved when the right
    couplers are lossless.  [in_order] lists the nodes column by column. *)
Theorem C02_mesh_is_product_partial : forall m p x y, wf_mesh m -> style m = TOP -> own_data m ->
  (forall nd, In nd (nodes m) -> snd (loss nd) = 0 /\ n_of nd = n_rails m) ->
  matrix_fn m false p x = Some y ->
  veq (n_rails m) y (apply_gammas (gammas p)
    (fold_left (fun v nd => app (n_rails m) (mzi_node_matrix nd (thetas p (node_id nd)) (phis p (node_id nd))) v)
               (in_order m) x)).
Proof. exact mesh_product. Qed.
Print Assumptions C02_mesh_is_product_partial.

Theorem C02_elements_partial : forall nd theta phi, snd (loss nd) = 0 ->
  let q := parallel_mzi TOP false theta phi (bs_error nd) (loss nd) in
  mk2 (t11 q) (t21 q) (t12 q) (t22 q) = mzi_node_matrix2 nd theta phi.
Proof. exact parallel_mzi_node. Qed.
Print Assumptions C02_elements_partial.

(** The finding: with attenuation on the right coupler the mesh's entry (1, 0) is not the node's. *)
Theorem C02_right_loss_refuted : exists err ls, fst ls <= 0 /\ snd ls <= 0 /\
  mk_mesh [node1 err ls] TOP = Some (mesh1 TOP err ls) /\
  matrix (mesh1 TOP err ls) false (pconst 0 0) 1 0 <> Some (mzi_node_matrix (node1 err ls) 0 0 1%nat 0%nat).
Proof.
  exact (match right_loss_mismatch with
    ex_intro _ err (ex_intro _ ls (conj H1 (conj H2 H3))) =>
      ex_intro _ err (ex_intro _ ls (conj H1 (conj H2 (conj (mesh1_made TOP err ls) H3)))) end).
Qed.
Print Assumptions C02_right_loss_refuted.

(** C03: any wiring that does not use a rail twice in a column, any style, any splitter errors, any phases. *)
Theorem C03_power_conserved : forall m back p x y, rails_disjoint (nodes m) -> lossless m ->
  matrix_fn m back p x = Some y -> power (n_rails m) y = power (n_rails m) x.
Proof. exact mesh_power. Qed.
Print Assumptions C03_power_conserved.
Theorem C03_unitary : forall m back p, wf_mesh m -> lossless m ->
  exists U, (forall i j, matrix m back p i j = Some (U i j)) /\ unitary (n_rails m) U.
Proof. exact mesh_unitary. Qed.
Print Assumptions C03_unitary.
(** Well-formed meshes never raise. *)
Theorem C03_total : forall m back p x, wf_mesh m -> exists y, matrix_fn m back p x = Some y.
Proof. exact wf_matrix_total. Qed.
Print Assumptions C03_total.

(** A 4-rail, 2-column, 3-node mesh (a balanced tree, ids in list order 1, 0, 2 are replaced by 0, 1, 2). *)
Definition mesh3_nodes : list node :=
  [mkNode 0 (0,0) (1/10, -1/10) 4 0 1 1 1 0; mkNode 1 (0,0) (1/20, 1/20) 4 2 3 1 1 0; mkNode 2 (0,0) (0,0) 4 1 3 2 2 1].
Definition mesh3 (s : phase_style) : mesh :=
  mkMesh mesh3_nodes s [0%nat; 1%nat; 2%nat] 4 (map bs_error mesh3_nodes) (map loss mesh3_nodes) [0%Z; 0%Z; 1%Z] 2.
Example mesh3_wf : forall s, mk_mesh mesh3_nodes s = Some (mesh3 s) /\ wf_mesh (mesh3 s) /\ lossless (mesh3 s) /\ own_data (mesh3 s).
Proof.
  intro s. split; [reflexivity |]. split; [| split].
  - split; [| split; [| split]].
    + intro c. cbn [nodes mesh3 mesh3_nodes filter column]. destruct (Z.eqb_spec 0 c); destruct (Z.eqb_spec 1 c); subst; try lia;
        cbn; repeat constructor; simpl; intuition discriminate.
    + intros nd H. destruct H as [<- | [<- | [<- | []]]]; simpl; lia.
    + simpl. repeat constructor; simpl; intuition discriminate.
    + intros c Hc. change (num_columns (mesh3 s)) with 2%Z in Hc. assert (E : c = 0%Z \/ c = 1%Z) by lia.
      destruct E; subst c; [exists (nth 0 mesh3_nodes (node1 (0,0) (0,0))) | exists (nth 2 mesh3_nodes (node1 (0,0) (0,0)))]; simpl; auto.
  - repeat constructor.
  - intros nd H. destruct H as [<- | [<- | [<- | []]]]; split; reflexivity.
Qed.

(** C04: attenuation only. *)
Theorem C04_never_amplifies : forall m back p x y, rails_disjoint (nodes m) -> attenuating m ->
  matrix_fn m back p x = Some y -> power (n_rails m) y <= power (n_rails m) x.
Proof. exact mesh_power_le. Qed.
Print Assumptions C04_never_amplifies.
Example C04_nonvacuous : wf_mesh (mesh1 SYMMETRIC (1/10, 0) (-3, -1/2)) /\ attenuating (mesh1 SYMMETRIC (1/10, 0) (-3, -1/2)).
Proof. split; [apply mesh1_wf | repeat constructor; simpl; lra]. Qed.

(** C05 *)
Theorem C05_linear : forall m back p a x b y, rails_disjoint (nodes m) ->
  matrix_fn m back p (fun i => a * x i + b * y i)%C =
  match matrix_fn m back p x, matrix_fn m back p y with
  | Some x', Some y' => Some (fun i => a * x' i + b * y' i)%C | _, _ => None end.
Proof. exact mesh_linear. Qed.
Print Assumptions C05_linear.
Theorem C05_matrix : forall m back p x y, rails_disjoint (nodes m) -> matrix_fn m back p x = Some y ->
  exists U : mat, (forall i j, matrix m back p i j = Some (U i j)) /\ veq (n_rails m) y (app (n_rails m) U x).
Proof. exact mesh_matrix_vec. Qed.
Print Assumptions C05_matrix.

(** C06, full statement: [matrix m true p i j = matrix m false p j i] for every well-formed mesh.  FALSE of the code
    for style DIFFERENTIAL and for nodes whose two splitter errors differ; proved otherwise. *)
Theorem C06_reciprocal_partial : forall m p, wf_mesh m -> style m <> DIFFERENTIAL -> equal_errors m ->
  forall i j, (i < n_rails m)%nat -> (j < n_rails m)%nat -> matrix m true p i j = matrix m false p j i.
Proof. exact mesh_reciprocal. Qed.
Print Assumptions C06_reciprocal_partial.
(** In particular for meshes of nodes constructed with ONE splitter error (CouplingNode(bs_error=x)). *)
Theorem C06_scalar_error_partial : forall l s m p, mk_mesh l s = Some m -> wf_mesh m -> s <> DIFFERENTIAL ->
  (forall nd, In nd l -> exists x, bs_error nd = norm_bs_error (PyFloat x)) ->
  forall i j, (i < n_rails m)%nat -> (j < n_rails m)%nat -> matrix m true p i j = matrix m false p j i.
Proof. exact scalar_reciprocal. Qed.
Print Assumptions C06_scalar_error_partial.
Example C06_scalar_nonvacuous : mk_mesh [node1 (norm_bs_error (PyFloat (1/10))) (-1, -2)] TOP = Some (mesh1 TOP (1/10, 1/10) (-1, -2)) /\
  wf_mesh (mesh1 TOP (1/10, 1/10) (-1, -2)).
Proof. split; [reflexivity | apply mesh1_wf]. Qed.
Theorem C06_differential_refuted : exists m p i j, wf_mesh m /\ lossless m /\ equal_errors m /\
  (i < n_rails m)%nat /\ (j < n_rails m)%nat /\ matrix m true p i j <> matrix m false p j i.
Proof. exact C06_diff_witness. Qed.
Print Assumptions C06_differential_refuted.
Theorem C06_unequal_errors_refuted : exists m p i j, wf_mesh m /\ lossless m /\ style m = TOP /\
  (i < n_rails m)%nat /\ (j < n_rails m)%nat /\ matrix m true p i j <> matrix m false p j i.
Proof. exact C06_err_witness. Qed.
Print Assumptions C06_unequal_errors_refuted.
Example C06_nonvacuous : wf_mesh (mesh1 BOTTOM (1/10, 1/10) (-1, -2)) /\ BOTTOM <> DIFFERENTIAL /\
  equal_errors (mesh1 BOTTOM (1/10, 1/10) (-1, -2)).
Proof. split; [apply mesh1_wf | split; [discriminate | repeat constructor]]. Qed.

(** C07: [order] is an arbitrary order of the scatter writes, possibly different at each column. *)
Theorem C07_jax_same : forall order m back p x, (forall l, Permutation (order l) l) -> rails_disjoint (nodes m) ->
  matrix_fn_jax order m back p x = matrix_fn m back p x.
Proof. exact jax_same. Qed.
Print Assumptions C07_jax_same.
(** In mesh3 the second column is padded with one masked dummy node. *)
Example C07_nonvacuous : exists y, matrix_fn_jax (@rev _) (mesh3 TOP) false (pconst 1 2) (basis 0) = Some y.
Proof.
  destruct (wf_matrix_total (mesh3 TOP) false (pconst 1 2) (basis 0) (proj1 (proj2 (mesh3_wf TOP)))) as [y H].
  exists y. rewrite C07_jax_same; auto. intros; apply Permutation_sym, Permutation_rev. apply (proj1 (proj2 (mesh3_wf TOP))).
Qed.

(** C09: implicit propagation, every mesh: it fails exactly when matrix_fn fails, and otherwise ends in its output. *)
Theorem C09_implicit : forall m back p x,
  match matrix_fn m back p x, propagate m back false p x with
  | Some y, Some sl => last sl x = y
  | None, None => True
  | _, _ => False
  end.
Proof. exact propagate_implicit_last. Qed.
Print Assumptions C09_implicit.
(** Explicit propagation, full statement: the same with [propagate m back true].  FALSE of the code in general;
    proved for error-free lossless meshes of style TOP or BOTTOM. *)
Theorem C09_explicit_partial : forall m back p x, rails_disjoint (nodes m) -> style m = TOP \/ style m = BOTTOM ->
  (forall e, In e (bs_errors m) -> e = (0, 0)) -> (forall l, In l (losses m) -> l = (0, 0)) ->
  match matrix_fn m back p x, propagate m back true p x with
  | Some y, Some sl => last sl x = y
  | None, None => True
  | _, _ => False
  end.
Proof. exact propagate_explicit_last. Qed.
Print Assumptions C09_explicit_partial.
(** What explicit propagation computes at a node of style TOP in general: the elements of a node with both
    splitter errors negated and the two losses exchanged. *)
Theorem C09_explicit_actual : forall theta phi err ls,
  qcol TOP false theta phi err ls = parallel_mzi TOP false theta phi (- fst err, - snd err) (snd ls, fst ls).
Proof. exact explicit_top. Qed.
Print Assumptions C09_explicit_actual.
Theorem C09_explicit_refuted : exists m p x y sl, wf_mesh m /\ lossless m /\ style m = TOP /\
  matrix_fn m false p x = Some y /\ propagate m false true p x = Some sl /\ last sl x 0%nat <> y 0%nat.
Proof. exact C09_witness. Qed.
Print Assumptions C09_explicit_refuted.
Theorem C09_explicit_raises : forall m back p x cols, style m = SYMMETRIC \/ style m = DIFFERENTIAL ->
  columns m = Some cols -> cols <> [] -> propagate m back true p x = None.
Proof. exact propagate_explicit_raises. Qed.
Print Assumptions C09_explicit_raises.

(** C26, full statement: ideal_node, coupling_matrix_phase and mmi_node_matrix are unitary at zero error and loss.
    True of ideal_node; FALSE of the other two. *)
Theorem C26_ideal_unitary_partial : forall nd s phi, 0 <= s <= 1 ->
  (top nd < n_of nd)%nat -> (bottom nd < n_of nd)%nat -> top nd <> bottom nd ->
  unitary (n_of nd) (ideal_node nd s phi).
Proof. exact ideal_unitary. Qed.
Print Assumptions C26_ideal_unitary_partial.
Theorem C26_coupling_matrix_phase_refuted : exists theta, ~ unitary 2 (of_mat2 (coupling_matrix_phase theta 0 0)).
Proof. exact coupling_phase_not_unitary. Qed.
Print Assumptions C26_coupling_matrix_phase_refuted.
(** It is unitary exactly where cos = sin, and the loss only reaches the top row. *)
Theorem C26_coupling_matrix_phase_partial : forall theta e, unitary 2 (of_mat2 (coupling_matrix_phase theta e 0)) <-> cos ((theta + e) / 2) = sin ((theta + e) / 2).
Proof. exact coupling_phase_unitary_iff. Qed.
Print Assumptions C26_coupling_matrix_phase_partial.
Theorem C26_coupling_matrix_phase_loss : forall theta e l, let m := coupling_matrix_phase theta e l in
  Cn2 (m11 m) + Cn2 (m12 m) = exp (ln 10 * l / 10) /\ Cn2 (m11 m) = exp (ln 10 * l / 10) * cos ((theta + e) / 2) ^ 2 /\
  Cn2 (m21 m) = sin ((theta + e) / 2) ^ 2 /\ Cn2 (m22 m) = sin ((theta + e) / 2) ^ 2.
Proof. exact coupling_phase_top_row. Qed.
Print Assumptions C26_coupling_matrix_phase_loss.
(** mmi_node_matrix raises on every node (the stored errors are pairs). *)
Theorem C26_mmi_raises_refuted : forall nd theta phi, mmi_node_matrix2 nd theta phi = None.
Proof. exact (fun nd theta phi => eq_refl). Qed.
Print Assumptions C26_mmi_raises_refuted.
