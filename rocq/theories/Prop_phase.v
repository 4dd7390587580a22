(** How a mesh's matrix depends on its phases, on the rails and on the listing of the nodes. *)
From Coq Require Import Reals Lra Lia List ZArith Permutation Bool.
From Verif Require Import Cx Arr Spec_circuit Model_coupling Model_forward Spec_mesh Proof_forward Proof_forward4 Proof_phase Proof_lip Proof_local.
Import ListNotations.
Local Open Scope R_scope.

(** C129: whole turns of any theta, phi or gamma (a different number of turns for each) leave the mesh unchanged, in both directions. *)
Theorem C129_whole_turns : forall m back p a b c x, (style m = TOP \/ style m = BOTTOM) ->
  matrix_fn m back (mkParams (fun k => thetas p k + 2 * PI * IZR (a k)) (fun k => phis p k + 2 * PI * IZR (b k)) (fun i => gammas p i + 2 * PI * IZR (c i))) x
  = matrix_fn m back p x.
Proof. exact mesh_period. Qed.
Print Assumptions C129_whole_turns.
(** With half-angle phase shifters the period is two turns: of theta for SYMMETRIC, of theta and phi for DIFFERENTIAL. *)
Theorem C129_double_turns_symmetric : forall m back p a b c x, style m = SYMMETRIC ->
  matrix_fn m back (mkParams (fun k => thetas p k + 4 * PI * IZR (a k)) (fun k => phis p k + 2 * PI * IZR (b k)) (fun i => gammas p i + 2 * PI * IZR (c i))) x
  = matrix_fn m back p x.
Proof. exact mesh_period_sym. Qed.
Print Assumptions C129_double_turns_symmetric.
Theorem C129_double_turns_differential : forall m back p a b c x, style m = DIFFERENTIAL ->
  matrix_fn m back (mkParams (fun k => thetas p k + 4 * PI * IZR (a k)) (fun k => phis p k + 4 * PI * IZR (b k)) (fun i => gammas p i + 2 * PI * IZR (c i))) x
  = matrix_fn m back p x.
Proof. exact mesh_period_diff. Qed.
Print Assumptions C129_double_turns_differential.
(** One turn is not enough there: it negates every entry of a one-node mesh. *)
Theorem C129_one_turn_negates : forall s err ls back theta phi i j, s = SYMMETRIC \/ s = DIFFERENTIAL -> (i < 2)%nat -> (j < 2)%nat ->
  exists z, matrix (mesh1 s err ls) back (pconst theta phi) i j = Some z /\
            matrix (mesh1 s err ls) back (pconst (theta + 2 * PI) phi) i j = Some (- z)%C.
Proof. exact mesh1_turn. Qed.
Print Assumptions C129_one_turn_negates.
Theorem C129_one_turn_phi_negates : forall err ls back theta phi i j, (i < 2)%nat -> (j < 2)%nat ->
  exists z, matrix (mesh1 DIFFERENTIAL err ls) back (pconst theta phi) i j = Some z /\
            matrix (mesh1 DIFFERENTIAL err ls) back (pconst theta (phi + 2 * PI)) i j = Some (- z)%C.
Proof. exact mesh1_turn_phi. Qed.
Print Assumptions C129_one_turn_phi_negates.
Example C129_nonvacuous : mk_mesh [node1 (1/10, 0) (-3, -1/2)] BOTTOM = Some (mesh1 BOTTOM (1/10, 0) (-3, -1/2)) /\
  exists y, matrix_fn (mesh1 BOTTOM (1/10, 0) (-3, -1/2)) true (pconst 1 2) (basis 0) = Some y.
Proof. split; [reflexivity | apply wf_matrix_total, mesh1_wf]. Qed.

(** C130: if in column c no node's theta and phi move by more than D c together, and no gamma by more than G, the output amplitude moves
    by at most (sum of the D c over the columns + G) times the input amplitude: every style, splitter error, attenuation and direction. *)
Theorem C130_phase_errors : forall m back p p' x y y' (D : Z -> R) G, wf_mesh m -> attenuating m ->
  (forall nd, In nd (nodes m) -> Rabs (thetas p (node_id nd) - thetas p' (node_id nd)) + Rabs (phis p (node_id nd) - phis p' (node_id nd)) <= D (column nd)) ->
  0 <= G -> (forall i, (i < n_rails m)%nat -> Rabs (gammas p i - gammas p' i) <= G) ->
  matrix_fn m back p x = Some y -> matrix_fn m back p' x = Some y' ->
  sqrt (power (n_rails m) (fun i => y i - y' i)%C) <= (Rsum (Z.to_nat (num_columns m)) (fun c => D (Z.of_nat c)) + G) * sqrt (power (n_rails m) x).
Proof. exact mesh_lip. Qed.
Print Assumptions C130_phase_errors.
Example C130_nonvacuous : let m := mesh1 DIFFERENTIAL (1/10, 0) (-3, -1/2) in wf_mesh m /\ attenuating m /\
  (forall nd, In nd (nodes m) -> Rabs (thetas (pconst 1 2) (node_id nd) - thetas (pconst (11/10) 2) (node_id nd)) + Rabs (phis (pconst 1 2) (node_id nd) - phis (pconst (11/10) 2) (node_id nd)) <= (fun _ : Z => 1/10) (column nd)).
Proof.
  cbv zeta. split; [apply mesh1_wf |]. split; [repeat constructor; simpl; lra |]. intros nd _. cbn [thetas phis pconst].
  replace (1 - 11 / 10) with (- (1/10)) by field. replace (2 - 2) with 0 by ring. rewrite Rabs_Ropp, Rabs_R0, Rabs_pos_eq by lra. lra.
Qed.

(** C131, full statement: the order in which the nodes are listed does not matter.  True when the nodes have the same splitter errors
    and losses; FALSE of the code otherwise, because those are looked up by list position. *)
Theorem C131_listing_order_partial : forall l l' s m m' n e ls back p x, Permutation l l' -> NoDup (map node_id l) -> rails_disjoint l ->
  (forall nd, In nd l -> n_of nd = n /\ bs_error nd = e /\ loss nd = ls) ->
  mk_mesh l s = Some m -> mk_mesh l' s = Some m' -> matrix_fn m back p x = matrix_fn m' back p x.
Proof. exact mesh_listing. Qed.
Print Assumptions C131_listing_order_partial.
Theorem C131_listing_order_refuted : exists l l' m m' p, Permutation l l' /\ mk_mesh l TOP = Some m /\ mk_mesh l' TOP = Some m' /\
  wf_mesh m /\ wf_mesh m' /\ lossless m /\ lossless m' /\ matrix m false p 0%nat 0%nat <> matrix m' false p 0%nat 0%nat.
Proof. exact listing_refuted. Qed.
Print Assumptions C131_listing_order_refuted.
(** Three nodes in two columns with ids 2, 0, 1 listed in two orders. *)
Example C131_nonvacuous : let a := mkNode 2 (-1, 0) (1/10, 0) 4 0 1 1 1 0 in let b := mkNode 0 (-1, 0) (1/10, 0) 4 2 3 1 1 0 in let c := mkNode 1 (-1, 0) (1/10, 0) 4 1 2 1 1 1 in
  Permutation [a; b; c] [c; a; b] /\ NoDup (map node_id [a; b; c]) /\ rails_disjoint [a; b; c] /\
  (forall nd, In nd [a; b; c] -> n_of nd = 4%nat /\ bs_error nd = (1/10, 0) /\ loss nd = (-1, 0)).
Proof.
  cbv zeta. split; [| split; [| split]].
  - apply Permutation_sym, (Permutation_cons_app [_; _] []). apply Permutation_refl.
  - repeat constructor; simpl; intuition discriminate.
  - intro k. cbn [filter column]. destruct (Z.eqb_spec 0 k); destruct (Z.eqb_spec 1 k); subst; try lia; cbn; repeat constructor; simpl; intuition discriminate.
  - intros nd [<- | [<- | [<- | []]]]; repeat split.
Qed.

(** C132: rails that no node couples to the rest are a circuit of their own: what comes out of them depends only on what goes into them,
    on the phases of their own nodes and on their own gammas. *)
Theorem C132_independent_rails : forall (S : nat -> Prop) m back p p' x x' y y', wf_mesh m ->
  (forall nd, In nd (nodes m) -> (S (top nd) <-> S (bottom nd))) ->
  (forall nd, In nd (nodes m) -> S (top nd) -> thetas p (node_id nd) = thetas p' (node_id nd) /\ phis p (node_id nd) = phis p' (node_id nd)) ->
  (forall i, S i -> gammas p i = gammas p' i) -> (forall i, S i -> x i = x' i) ->
  matrix_fn m back p x = Some y -> matrix_fn m back p' x' = Some y' -> forall i, S i -> y i = y' i.
Proof. exact mesh_local. Qed.
Print Assumptions C132_independent_rails.
Theorem C132_no_crosstalk : forall m back p i j (S : nat -> Prop), wf_mesh m -> (forall nd, In nd (nodes m) -> (S (top nd) <-> S (bottom nd))) ->
  S i -> ~ S j -> matrix m back p i j = Some C0.
Proof. exact mesh_blocks. Qed.
Print Assumptions C132_no_crosstalk.
(** A rail without nodes only gets its gamma. *)
Theorem C132_untouched_rail : forall m back p x y i, wf_mesh m -> (forall nd, In nd (nodes m) -> top nd <> i /\ bottom nd <> i) ->
  matrix_fn m back p x = Some y -> y i = (cis (gammas p i) * x i)%C.
Proof. exact mesh_untouched. Qed.
Print Assumptions C132_untouched_rail.
(** Two separate couplers on four rails. *)
Example C132_nonvacuous : wf_mesh (pair_mesh [pair_a; pair_b]) /\ (forall nd, In nd (nodes (pair_mesh [pair_a; pair_b])) -> ((top nd < 2)%nat <-> (bottom nd < 2)%nat)).
Proof. split; [apply pair_wf; auto |]. intros nd [<- | [<- | []]]; cbn; lia. Qed.
