(** C22 dirichlet_matrix, C23 csinv, C24 column bookkeeping. *)
From Coq Require Import Reals List ZArith Permutation.
From Verif Require Import Cx Arr Spec_circuit Model_coupling Model_forward Model_vector Model_matrix Spec_mesh Spec_columns
  Proof_matrix Proof_columns.
Import ListNotations.
Local Open Scope R_scope.

(** C22: unitary, and v @ U has amplitude |v| on the last rail and 0 on the others. *)
Theorem C22_dirichlet : forall n v, (0 < n)%nat -> v 0%nat <> C0 ->
  exists U, dirichlet_matrix n v None = Some U /\ unitary n U /\
    forall j, (j < n)%nat -> Csum n (fun i => v i * U i j)%C = if Nat.eqb j (n - 1) then RtoC (sqrt (power n v)) else C0.
Proof. exact dirichlet_spec. Qed.
Print Assumptions C22_dirichlet.
Theorem C22_dirichlet_embedded : forall n v d, (0 < n)%nat -> v 0%nat <> C0 -> (n <= d)%nat ->
  exists U, dirichlet_matrix n v (Some d) = Some U /\ unitary d U /\
    forall j, (j < n)%nat -> Csum n (fun i => v i * U i j)%C = if Nat.eqb j (n - 1) then RtoC (sqrt (power n v)) else C0.
Proof. exact dirichlet_embed_spec. Qed.
Print Assumptions C22_dirichlet_embedded.
Example C22_nonvacuous : (fun i => if Nat.eqb i 1 then C0 else Ci : C) 0%nat <> C0.
Proof. intro H. apply (f_equal im) in H. cbn in H. apply R1_neq_R0 in H. exact H. Qed.

(** C23: even (m1 = m0) and odd (m1 = m0 + 1) partitions; any other partition raises. *)
Theorem C23_csinv_unitary : forall m0 m1 l0 l1 r0 r1 theta, (m1 = m0 \/ m1 = S m0) ->
  unitary m0 l0 -> unitary m1 l1 -> unitary m0 r0 -> unitary m1 r1 ->
  exists u, csinv m0 m1 m0 l0 l1 r0 r1 theta = Some u /\ unitary (m0 + m1) u.
Proof. exact csinv_unitary. Qed.
Print Assumptions C23_csinv_unitary.
Theorem C23_other_partitions_raise : forall m0 m1 l0 l1 r0 r1 theta, m1 <> m0 -> m1 <> S m0 ->
  csinv m0 m1 m0 l0 l1 r0 r1 theta = None.
Proof. exact csinv_raises. Qed.
Print Assumptions C23_other_partitions_raise.
Example C23_nonvacuous : forall m, unitary m delta.
Proof. exact delta_unitary. Qed.

(** C24: [columns] partitions the nodes, in list order within a column. *)
Theorem C24_columns_partition : forall m, NoDup (map node_id (nodes m)) ->
  (forall nd, In nd (nodes m) -> (0 <= column nd < num_columns m)%Z) ->
  (forall c, (0 <= c < num_columns m)%Z -> exists nd, In nd (nodes m) /\ column nd = c) ->
  exists cols, columns m = Some cols /\ length cols = Z.to_nat (num_columns m) /\
    (forall c nc, nth_error cols c = Some nc -> nodes nc = filter (fun nd => Z.eqb (column nd) (Z.of_nat c)) (nodes m)) /\
    Permutation (concat (map nodes cols)) (nodes m).
Proof. exact (fun m H1 H2 H3 => columns_partition m (Build_book_ok m H1 H2 H3)). Qed.
Print Assumptions C24_columns_partition.
(** Any chain of invert_columns() and offset(k) calls keeps the columns (reversed after an odd number of inversions),
    with all ids shifted by the sum of the offsets. *)
Theorem C24_any_sequence : forall m l, NoDup (map node_id (nodes m)) ->
  (forall nd, In nd (nodes m) -> (0 <= column nd < num_columns m)%Z) ->
  (forall c, (0 <= c < num_columns m)%Z -> exists nd, In nd (nodes m) /\ column nd = c) ->
  exists cols cols', columns m = Some cols /\ columns (books m l) = Some cols' /\
    Permutation (concat (map nodes cols')) (nodes (books m l)) /\
    let b := map (fun nc => map (shifted (shift_of l)) (map placed (nodes nc))) cols in
    map (fun nc => map placed (nodes nc)) cols' = if odd_of l then rev b else b.
Proof. exact book_sequence. Qed.
Print Assumptions C24_any_sequence.
Theorem C24_invert_involutive : forall m, nodes (invert_columns (invert_columns m)) = nodes m /\
  num_columns (invert_columns (invert_columns m)) = num_columns m.
Proof. exact invert_involutive. Qed.
Print Assumptions C24_invert_involutive.
(** The labels cached at construction (column_by_node, the labels used for column cut-offs) follow the nodes. *)
Theorem C24_cached_columns : forall l s m ops, mk_mesh l s = Some m ->
  column_by_node (books m ops) = map column (nodes (books m ops)).
Proof. exact cached_columns. Qed.
Print Assumptions C24_cached_columns.
(** False of the code for offset_column: num_columns is stale and the next [columns] raises, for every positive offset. *)
Theorem C24_offset_column_refuted : forall m k, (0 < k)%Z -> (0 < num_columns m)%Z -> (forall nd, In nd (nodes m) -> (0 <= column nd)%Z) ->
  columns (offset_column m k) = None.
Proof. exact offset_column_raises. Qed.
Print Assumptions C24_offset_column_refuted.
(** Without contiguous nonnegative labels nodes are lost silently. *)
Theorem C24_negative_column_dropped : exists l m cols, mk_mesh l TOP = Some m /\ columns m = Some cols /\
  length (nodes m) = 2%nat /\ length (concat (map nodes cols)) = 1%nat.
Proof. exact negative_dropped. Qed.
Print Assumptions C24_negative_column_dropped.
Example C24_nonvacuous : exists m, tree 3 3 true TOP = Some m /\ NoDup (map node_id (nodes m)) /\
  (forall nd, In nd (nodes m) -> (0 <= column nd < num_columns m)%Z) /\
  (forall c, (0 <= c < num_columns m)%Z -> exists nd, In nd (nodes m) /\ column nd = c).
Proof. exact tree3_book. Qed.
