From Coq Require Import Reals Lra Lia List ZArith Permutation Bool.
From Verif Require Import Cx Arr Spec_circuit Model_coupling Model_forward Spec_mesh Spec_columns
  Proof_mesh Proof_forward Proof_forward2 Proof_tree Proof_vector Proof_cascade Proof_cascade2 Proof_forward3 Proof_forward4 Proof_order Proof_insitu2.
Import ListNotations.
Local Open Scope nat_scope.

(** Contiguous column labels starting at 0 (the invariant every generator of the library establishes). *)
Record book_ok (m : mesh) : Prop := {
  bk_ids : NoDup (map node_id (nodes m));
  bk_range : forall nd, In nd (nodes m) -> (0 <= column nd < num_columns m)%Z;
  bk_full : forall c, (0 <= c < num_columns m)%Z -> exists nd, In nd (nodes m) /\ column nd = c }.

Definition byc (m : mesh) : list (list node) := map (fun c => nodes_in_column (nodes m) (Z.of_nat c)) (seq 0 (Z.to_nat (num_columns m))).

Lemma mk_mesh_nodes1 : forall l s, l <> [] -> NoDup (map node_id l) -> exists nc, mk_mesh l s = Some nc /\ nodes nc = l.
Proof.
  intros [| a l] s H Hnd; [congruence |]. unfold mk_mesh. eexists. split; [reflexivity |]. cbn [nodes]. apply renumber_single; auto.
Qed.
Lemma columns_total : forall m, book_ok m -> exists cols, columns m = Some cols /\ map nodes cols = byc m.
Proof.
  intros m [Hi Hr Hf]. unfold columns, byc.
  assert (H : forall c, In c (seq 0 (Z.to_nat (num_columns m))) -> nodes_in_column (nodes m) (Z.of_nat c) <> []).
  { intros c Hc E. apply in_seq in Hc. destruct (Hf (Z.of_nat c) ltac:(lia)) as (nd & Hn & Ec).
    assert (Hx : In nd (nodes_in_column (nodes m) (Z.of_nat c))) by (apply filter_In; split; [exact Hn | apply Z.eqb_eq; exact Ec]).
    rewrite E in Hx. destruct Hx. }
  induction (seq 0 (Z.to_nat (num_columns m))) as [| c l IH].
  - exists []. split; reflexivity.
  - destruct IH as (cols & E1 & E2); [intros; apply H; right; auto |].
    destruct (mk_mesh_nodes1 (nodes_in_column (nodes m) (Z.of_nat c)) (style m)) as (nc & E3 & E4).
    + apply H. left; auto.
    + apply filter_nodup_id; auto.
    + exists (nc :: cols). cbn [map all_some]. rewrite E3, E1. split; [reflexivity |]. rewrite E4, E2. reflexivity.
Qed.

Lemma columns_partition : forall m, book_ok m -> exists cols, columns m = Some cols /\
  length cols = Z.to_nat (num_columns m) /\
  (forall c nc, nth_error cols c = Some nc -> nodes nc = filter (fun nd => Z.eqb (column nd) (Z.of_nat c)) (nodes m)) /\
  Permutation (concat (map nodes cols)) (nodes m).
Proof.
  intros m H. destruct (columns_total m H) as (cols & E1 & E2). exists cols. split; auto.
  assert (L : length cols = Z.to_nat (num_columns m)) by (rewrite <- (map_length nodes), E2; unfold byc; rewrite map_length, seq_length; reflexivity).
  split; auto. split.
  - intros c nc Hc. assert (Hlt : c < Z.to_nat (num_columns m)) by (rewrite <- L; apply nth_error_Some; congruence).
    pose proof (map_nth_error nodes c cols Hc) as H1. rewrite E2 in H1. unfold byc in H1.
    rewrite (map_nth_error _ c (seq 0 (Z.to_nat (num_columns m))) (d := c)) in H1.
    + apply Some_inj in H1. rewrite <- H1. reflexivity.
    + rewrite nth_error_nth' with (d := 0) by (rewrite seq_length; auto). rewrite seq_nth by auto. reflexivity.
  - rewrite E2. apply in_order_perm. intros nd Hn. pose proof (bk_range m H nd Hn). lia.
Qed.

Lemma book1_ok : forall m b, book_ok m -> book_ok (book1 m b).
Proof.
  intros m [| k] [Hi Hr Hf]; cbn [book1].
  - constructor; unfold invert_columns; cbn [nodes num_columns].
    + rewrite map_map. cbn [node_id with_column]. exact Hi.
    + intros nd H. apply in_map_iff in H. destruct H as (a & <- & Ha). cbn [column with_column]. specialize (Hr a Ha). lia.
    + intros c Hc. destruct (Hf (num_columns m - 1 - c)%Z ltac:(lia)) as (a & Ha & Ec).
      eexists. split; [apply in_map; exact Ha |]. cbn [column with_column]. lia.
  - constructor; unfold offset; cbn [nodes num_columns].
    + rewrite map_map. cbn [node_id with_id]. rewrite <- (map_map node_id (fun i => i + k)). apply FinFun.Injective_map_NoDup; auto. intros x y; lia.
    + intros nd H. apply in_map_iff in H. destruct H as (a & <- & Ha). cbn [column with_id]. auto.
    + intros c Hc. destruct (Hf c Hc) as (a & Ha & Ec). eexists. split; [apply in_map; exact Ha |]. exact Ec.
Qed.

Lemma filter_map_comm : forall (A B : Type) (f : A -> B) (q : B -> bool) l, filter q (map f l) = map f (filter (fun x => q (f x)) l).
Proof. intros A B f q l. induction l as [| a l IH]; auto. cbn [map filter]. destruct (q (f a)); cbn [map]; rewrite IH; reflexivity. Qed.

Lemma rev_seq_map : forall (A : Type) (f : nat -> A) n, map (fun c => f (n - 1 - c)) (seq 0 n) = rev (map f (seq 0 n)).
Proof.
  intros A f n. apply nth_ext with (d := f 0) (d' := f 0).
  - rewrite rev_length, !map_length; reflexivity.
  - intros i Hi. rewrite map_length, seq_length in Hi.
    rewrite rev_nth by (rewrite map_length, seq_length; auto). rewrite map_length, seq_length.
    rewrite nth_indep with (d' := (fun c => f (n - 1 - c)) 0) by (rewrite map_length, seq_length; auto).
    rewrite (map_nth (fun c => f (n - 1 - c))), (map_nth f). rewrite !seq_nth by lia. f_equal. lia.
Qed.

Lemma byc_invert : forall m, map (map placed) (byc (invert_columns m)) = rev (map (map placed) (byc m)).
Proof.
  intros m. unfold byc. cbn [nodes num_columns invert_columns]. rewrite <- map_rev, <- rev_seq_map, !map_map.
  apply map_ext_in. intros c Hc. apply in_seq in Hc. unfold nodes_in_column. rewrite filter_map_comm, map_map. cbn [column with_column].
  change (fun x : node => placed (with_column x (num_columns m - 1 - column x)%Z)) with (fun x : node => placed x).
  f_equal. apply filter_ext. intro a. destruct (Z.eqb_spec (num_columns m - 1 - column a) (Z.of_nat c)); destruct (Z.eqb_spec (column a) (Z.of_nat (Z.to_nat (num_columns m) - 1 - c))); auto; lia.
Qed.
Lemma byc_offset : forall m k, map (map placed) (byc (offset m k)) = map (map (shifted k)) (map (map placed) (byc m)).
Proof.
  intros m k. unfold byc. cbn [nodes num_columns offset]. rewrite !map_map. apply map_ext. intro c.
  unfold nodes_in_column. rewrite filter_map_comm, !map_map. reflexivity.
Qed.

Lemma shifted_shifted : forall a b x, shifted b (shifted a x) = shifted (a + b) x.
Proof. intros a b [[i t] c]. unfold shifted. f_equal. f_equal. lia. Qed.
Lemma shifted_0 : forall x, shifted 0 x = x.
Proof. intros [[i t] c]. unfold shifted. rewrite Nat.add_0_r. reflexivity. Qed.

Lemma books_byc : forall l m, map (map placed) (byc (books m l)) =
  let b := map (map (shifted (shift_of l))) (map (map placed) (byc m)) in if odd_of l then rev b else b.
Proof.
  induction l as [| [| k] l IH]; intro m.
  - cbn [books fold_left shift_of odd_of]. cbv zeta. rewrite (map_ext (map (shifted 0)) (fun x => x)); [rewrite map_id; reflexivity |].
    intro a. rewrite (map_ext (shifted 0) (fun x => x)) by (apply shifted_0). apply map_id.
  - change (books m (Invert :: l)) with (books (invert_columns m) l). rewrite IH, byc_invert. cbn [shift_of odd_of]. cbv zeta.
    rewrite map_rev. destruct (odd_of l); cbn [negb]; [apply rev_involutive | reflexivity].
  - change (books m (Offset k :: l)) with (books (offset m k) l). rewrite IH, byc_offset. cbn [shift_of odd_of]. cbv zeta.
    assert (E : forall L, map (map (shifted (shift_of l))) (map (map (shifted k)) L) = map (map (shifted (k + shift_of l))) L).
    { intro L. rewrite map_map. apply map_ext. intro a. rewrite map_map. apply map_ext. intro x. apply shifted_shifted. }
    rewrite E. reflexivity.
Qed.

Lemma books_ok : forall l m, book_ok m -> book_ok (books m l).
Proof. induction l as [| b l IH]; intros m H; auto. cbn [books fold_left]. apply IH, book1_ok, H. Qed.

Lemma book_sequence : forall m l, NoDup (map node_id (nodes m)) ->
  (forall nd, In nd (nodes m) -> (0 <= column nd < num_columns m)%Z) ->
  (forall c, (0 <= c < num_columns m)%Z -> exists nd, In nd (nodes m) /\ column nd = c) ->
  exists cols cols', columns m = Some cols /\ columns (books m l) = Some cols' /\
    Permutation (concat (map nodes cols')) (nodes (books m l)) /\
    let b := map (fun nc => map (shifted (shift_of l)) (map placed (nodes nc))) cols in
    map (fun nc => map placed (nodes nc)) cols' = if odd_of l then rev b else b.
Proof.
  intros m l H1 H2 H3. pose proof (Build_book_ok m H1 H2 H3) as H.
  destruct (columns_total m H) as (cols & E1 & E2).
  destruct (columns_total (books m l) (books_ok l m H)) as (cols' & E3 & E4).
  exists cols, cols'. split; auto. split; auto. split.
  - rewrite E4. apply in_order_perm. intros nd Hn. pose proof (bk_range _ (books_ok l m H) nd Hn). lia.
  - cbv zeta. pose proof (books_byc l m) as E. cbv zeta in E. rewrite <- E2, <- E4 in E. rewrite !map_map in E. exact E.
Qed.

Lemma invert_involutive : forall m, nodes (invert_columns (invert_columns m)) = nodes m /\ num_columns (invert_columns (invert_columns m)) = num_columns m.
Proof.
  intro m. split; [| reflexivity]. unfold invert_columns. cbn [nodes num_columns]. rewrite map_map.
  rewrite (map_ext _ (fun x => x)); [apply map_id |]. intros [i lo e n t b al be c]. unfold with_column. cbn. f_equal. lia.
Qed.

(** offset_column leaves num_columns stale: afterwards column 0 is empty and [columns] raises. *)
Lemma offset_column_raises : forall m k, (0 < k)%Z -> (0 < num_columns m)%Z -> (forall nd, In nd (nodes m) -> (0 <= column nd)%Z) ->
  columns (offset_column m k) = None.
Proof.
  intros m k Hk Hn Hc. unfold columns. cbn [nodes num_columns offset_column style].
  destruct (Z.to_nat (num_columns m)) as [| N] eqn:EN; [lia |]. cbn [seq map].
  assert (E : nodes_in_column (map (fun nd : node => with_column nd (column nd + k)%Z) (nodes m)) (Z.of_nat 0) = []).
  { unfold nodes_in_column. rewrite filter_map_comm. cbn [column with_column].
    assert (Ef : filter (fun x : node => (column x + k =? Z.of_nat 0)%Z) (nodes m) = []).
    { revert Hc. generalize (nodes m). intros l Hc. induction l as [| a l IH]; auto. cbn [filter].
      pose proof (Hc a (or_introl eq_refl)). destruct (Z.eqb_spec (column a + k) (Z.of_nat 0)); [lia |]. apply IH. intros; apply Hc; right; auto. }
    rewrite Ef. reflexivity. }
  rewrite E. reflexivity.
Qed.
(** A node with a negative column label is silently dropped by [columns]. *)
Lemma negative_dropped : exists l m cols, mk_mesh l TOP = Some m /\ columns m = Some cols /\ length (nodes m) = 2 /\ length (concat (map nodes cols)) = 1.
Proof.
  exists [mkNode 0 (0,0)%R (0,0)%R 2 0 1 1 1 (-1); mkNode 0 (0,0)%R (0,0)%R 2 0 1 1 1 0].
  eexists. eexists. split; [reflexivity |]. split; [reflexivity |]. split; reflexivity.
Qed.
Lemma tree3_book : exists m, Model_vector.tree 3 3 true TOP = Some m /\ NoDup (map node_id (nodes m)) /\
  (forall nd, In nd (nodes m) -> (0 <= column nd < num_columns m)%Z) /\
  (forall c, (0 <= c < num_columns m)%Z -> exists nd, In nd (nodes m) /\ column nd = c).
Proof.
  destruct (tree_balanced 3 3 TOP ltac:(lia) ltac:(lia)) as (m & E & _ & _ & _ & _ & _ & Hc & _ & _ & _ & (_ & _ & Hi & Hf)).
  exists m. auto.
Qed.

(** The cached labels follow the nodes through any chain of invert_columns() and offset(k). *)
Lemma books_cached : forall l m, column_by_node m = map column (nodes m) ->
  column_by_node (books m l) = map column (nodes (books m l)).
Proof.
  induction l as [| b l IH]; intros m H; [exact H |]. cbn. apply IH. destruct b as [| k]; [reflexivity |].
  cbn. rewrite H, map_map. reflexivity.
Qed.
Lemma map_column_renumber : forall l, map column (renumber l) = map column l.
Proof.
  intro l. unfold renumber. destruct (Nat.eqb _ 0); [| reflexivity]. rewrite map_map. cbn.
  generalize 0%nat. induction l as [| a l IH]; intro k; [reflexivity |]. cbn. rewrite IH. reflexivity.
Qed.
Lemma cached_columns : forall l s m ops, mk_mesh l s = Some m ->
  column_by_node (books m ops) = map column (nodes (books m ops)).
Proof.
  intros l s m ops H. apply books_cached. destruct l as [| a l]; [discriminate |]. unfold mk_mesh in H.
  assert (E : forall x y : mesh, Some x = Some y -> x = y) by (intros x y K; injection K; auto).
  apply E in H. subst m. cbn [column_by_node nodes]. symmetry. apply map_column_renumber.
Qed.
