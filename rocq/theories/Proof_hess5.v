(** The two vector-unit networks as binary trees. *)
From Coq Require Import Reals Lra Lia List ZArith Bool Arith Permutation.
From Verif Require Import Cx Arr Model_coupling Model_forward Model_vector Model_hess Spec_mesh Spec_tree Proof_node Proof_mesh Proof_forward Proof_forward3 Proof_forward4 Proof_tree Proof_vector
  Proof_hess1 Proof_hess2 Proof_hess3 Proof_hess4.
Import ListNotations.

Definition flip (K : Z) (nd : node) : node := with_column nd (K - column nd)%Z.
Record treeof (t : bt) (l : list node) (K : Z) (start len : nat) (ds : list entry) : Prop := {
  to_nodes : tnodes t = map (flip K) l;
  to_leaves : leaves t = seq start (len + 1);
  to_rail : rail t = start + len;
  to_shaped : shaped t;
  to_ds : ds_ok t ds }.

Lemma firstn_nth_skipn : forall (X : Type) (l : list X) k d, k < length l -> l = firstn k l ++ nth k l d :: skipn (S k) l.
Proof.
  intros X l. induction l as [| a l IH]; intros k d H; [cbn in H; lia |]. destruct k as [| k]; [reflexivity |].
  cbn [firstn nth skipn]. rewrite <- app_comm_cons. f_equal. apply IH. cbn in H. lia.
Qed.
Lemma tree_bt : forall fuel indices r start col l K, length indices < fuel -> tree_rec fuel indices r start col = Some l ->
  exists t, treeof t l K start (length indices) (desc_rec fuel indices) /\ (forall j, In j (ids t) <-> In j indices) /\
    (forall x, In x (tnodes t) -> (column x <= K - col)%Z).
Proof.
  induction fuel as [| fuel IH]; intros indices r start col l K Hf E; [lia |].
  cbn [tree_rec desc_rec] in *. set (n := length indices + 1) in *. set (m := n / 2) in *.
  destruct (Nat.eqb_spec n 1) as [En | En].
  - apply Some_inj in E. subst l. assert (indices = []) by (apply length_zero_iff_nil; lia). subst indices.
    exists (Lf start). split; [| split].
    + constructor; [reflexivity | reflexivity | cbn; lia | exact I | constructor].
    + intro j. cbn. tauto.
    + intros x [].
  - assert (Hn : 2 <= n) by lia.
    pose proof (Nat.div_mod n 2 ltac:(lia)) as E1. pose proof (Nat.mod_upper_bound n 2 ltac:(lia)) as E2. fold m in E1.
    assert (Hm : 1 <= m) by lia. assert (Hmn : m < n) by lia.
    assert (L1 : length (firstn (m - 1) indices) = m - 1) by (rewrite firstn_length; lia).
    assert (L2 : length (skipn m indices) = n - 1 - m) by (rewrite skipn_length; lia).
    destruct (tree_rec fuel (firstn (m - 1) indices) r start (col + 1)) as [l1 |] eqn:El1; [| discriminate].
    cbn [obind] in E. destruct (tree_rec fuel (skipn m indices) r (start + m) (col + 1)) as [l2 |] eqn:El2; [| discriminate].
    cbn [obind] in E. apply Some_inj in E. subst l.
    destruct (IH (firstn (m - 1) indices) _ _ _ _ K ltac:(rewrite L1; lia) El1) as (T & HT & IT & CT). destruct (IH (skipn m indices) _ _ _ _ K ltac:(rewrite L2; lia) El2) as (B & HB & IB & CB).
    rewrite L1 in HT. rewrite L2 in HB.
    set (nd := plain_node (nth (m - 1) indices 0) r (start + m - 1) (start + n - 1) (length (skipn m indices) + 1) (length (firstn (m - 1) indices) + 1) col) in *.
    exists (Nd (flip K nd) T B). split; [| split].
    + constructor.
      * cbn [tnodes map]. rewrite map_app, (to_nodes _ _ _ _ _ _ HT), (to_nodes _ _ _ _ _ _ HB). reflexivity.
      * cbn [leaves]. rewrite (to_leaves _ _ _ _ _ _ HT), (to_leaves _ _ _ _ _ _ HB).
        replace (m - 1 + 1) with m by lia. replace (n - 1 - m + 1) with (n - m) by lia. rewrite <- seq_app. f_equal. lia.
      * cbn [rail]. rewrite (to_rail _ _ _ _ _ _ HB). lia.
      * cbn [shaped]. rewrite (to_rail _ _ _ _ _ _ HT), (to_rail _ _ _ _ _ _ HB). unfold flip, with_column, nd, plain_node. cbn [top bottom column].
        split; [lia |]. split; [lia |]. split; [| split; [apply HT | apply HB]].
        intros x Hx. apply in_app_or in Hx. destruct Hx as [Hx | Hx]; [specialize (CT x Hx) | specialize (CB x Hx)]; lia.
      * change (nth (m - 1) indices 0) with (node_id (flip K nd)). constructor; [| | apply HT | apply HB].
        -- intro j. symmetry. apply IT.
        -- intro j. symmetry. apply IB.
    + intro j. rewrite ids_nd. cbn [In]. rewrite in_app_iff, IT, IB.
      change (node_id (flip K nd)) with (nth (m - 1) indices 0).
      rewrite (firstn_nth_skipn _ indices (m - 1) 0) at 4 by lia. rewrite in_app_iff. cbn [In].
      replace (S (m - 1)) with m by lia. tauto.
    + intros x Hx. cbn [tnodes] in Hx. destruct Hx as [<- | Hx]; [unfold flip, with_column, nd, plain_node; cbn [column]; lia |].
      apply in_app_or in Hx. destruct Hx as [Hx | Hx]; [specialize (CT x Hx) | specialize (CB x Hx)]; lia.
Qed.

Fixpoint chain_bt (n r k : nat) : bt := match k with
  | O => Lf 0
  | S i => Nd (plain_node i r i (i + 1) 1 (n - i - 1) (Z.of_nat i)) (chain_bt n r i) (Lf (i + 1)) end.
Lemma chain_treeof : forall n r, (1 <= n) -> treeof (chain_bt n r (n - 1)) (chain_nodes n r) (Z.of_nat n - 2) 0 (n - 1) (chain_desc n).
Proof.
  intros n r Hn. unfold chain_nodes, chain_desc.
  assert (H : forall k, k <= n - 1 ->
    tnodes (chain_bt n r k) = map (flip (Z.of_nat n - 2)) (map (fun i => plain_node i r i (i + 1) 1 (n - i - 1) (Z.of_nat n - 2 - Z.of_nat i)) (rev (seq 0 k))) /\
    leaves (chain_bt n r k) = seq 0 (k + 1) /\ rail (chain_bt n r k) = k /\ shaped (chain_bt n r k) /\
    ds_ok (chain_bt n r k) (map (fun i => (i, seq 0 i, [])) (rev (seq 0 k))) /\ ids (chain_bt n r k) = rev (seq 0 k)).
  { induction k as [| k IH]; intros Hk.
    - cbn. repeat split; constructor.
    - destruct (IH ltac:(lia)) as (H1 & H2 & H3 & H4 & H5 & H6). cbn [chain_bt].
      rewrite seq_S, rev_app_distr. cbn [rev app Nat.add]. split; [| split; [| split; [| split; [| split]]]].
      + cbn [tnodes map]. rewrite app_nil_r, H1. f_equal.
        unfold flip, with_column, plain_node. cbn [column node_id bs_error loss n_of top bottom alpha beta]. replace (Z.of_nat n - 2 - (Z.of_nat n - 2 - Z.of_nat k))%Z with (Z.of_nat k) by lia. reflexivity.
      + cbn [leaves]. rewrite H2, seq_S. reflexivity.
      + cbn [rail]. lia.
      + cbn [shaped tnodes]. rewrite app_nil_r, H3. unfold plain_node at 1 2. cbn [top bottom column]. repeat split; try exact I; [| exact H4].
        intros x Hx. rewrite H1 in Hx. apply in_map_iff in Hx. destruct Hx as (y & <- & Hy). apply in_map_iff in Hy. destruct Hy as (i & <- & Hi).
        apply in_rev in Hi. apply in_seq in Hi. unfold flip, with_column, plain_node. cbn [column]. lia.
      + cbn [map]. rewrite <- (app_nil_r (map _ (rev (seq 0 k)))).
        change k with (node_id (plain_node k r k (k + 1) 1 (n - k - 1) (Z.of_nat k))) at 2.
        apply (ds_nd (plain_node k r k (k + 1) 1 (n - k - 1) (Z.of_nat k)) (chain_bt n r k) (Lf (k + 1)) (seq 0 k) [] _ []).
        * intro j. rewrite H6, <- in_rev. tauto.
        * intro j. reflexivity.
        * exact H5.
        * constructor.
      + rewrite ids_nd, H6. cbn. rewrite app_nil_r. reflexivity. }
  destruct (H (n - 1) (Nat.le_refl _)) as (H1 & H2 & H3 & H4 & H5 & H6). constructor; auto; lia.
Qed.

(** Both networks. *)
Lemma unit_bt : forall n balanced s t, (2 <= n) -> tree n n balanced s = Some t ->
  exists T, tnodes T = nodes t /\ leaves T = seq 0 n /\ rail T = n - 1 /\ shaped T /\ ds_ok T (descendants n balanced).
Proof.
  intros n balanced s t Hn E. unfold tree in E. unfold descendants. destruct balanced.
  - destruct (tree_rec_spec n (seq 0 (n - 1)) n 0 0%Z) as (l & El & [I T R Cc D O F]); [rewrite seq_length; lia |].
    rewrite seq_length in *. replace (n - 1 + 1) with n in * by lia. rewrite El in E. cbn [obind] in E.
    assert (Hpos : 0 < Nat.log2_up n) by (apply Nat.log2_up_pos; lia).
    destruct (inverted_mesh l s (Nat.log2_up n) n) as (m & Em & Es & En & Enodes & Ee & Elo & Enc).
    + intro Hl. subst l. destruct (F 0%Z ltac:(lia)) as (nd & [] & _).
    + eapply Permutation_NoDup; [apply Permutation_sym, I | apply seq_NoDup].
    + intros nd H. apply (R nd H).
    + intros nd H. apply (Cc nd H).
    + destruct (F (Z.of_nat (Nat.log2_up n) - 1)%Z ltac:(lia)) as (nd & H1 & H2). eauto.
    + rewrite Em in E. apply Some_inj in E. subst m.
      destruct (tree_bt n (seq 0 (n - 1)) n 0 0%Z l (Z.of_nat (Nat.log2_up n) - 1)%Z) as (T0 & [H1 H2 H3 H4 H5] & _ & _); [rewrite seq_length; lia | exact El |].
      rewrite seq_length in *. exists T0. split; [rewrite H1, Enodes; reflexivity |]. split; [rewrite H2; f_equal; lia |]. split; [lia |]. split; assumption.
  - cbn [obind] in E.
    assert (Ids : map node_id (chain_nodes n n) = rev (seq 0 (n - 1))).
    { unfold chain_nodes. rewrite map_map. cbn [node_id plain_node]. apply map_id. }
    destruct (inverted_mesh (chain_nodes n n) s (n - 1) n) as (m & Em & Es & En & Enodes & Ee & El & Enc).
    + intro H. apply (f_equal (@length _)) in H. unfold chain_nodes in H. rewrite map_length, rev_length, seq_length in H. simpl in H. lia.
    + rewrite Ids. apply NoDup_rev, seq_NoDup.
    + intros nd H. apply chain_In in H. destruct H as (i & Hi & ->). reflexivity.
    + intros nd H. apply chain_In in H. destruct H as (i & Hi & ->). simpl. lia.
    + exists (plain_node 0 n 0 (0 + 1) 1 (n - 0 - 1) (Z.of_nat n - 2 - Z.of_nat 0)). split; [| simpl; lia].
      apply chain_In. exists 0. split; [lia | reflexivity].
    + rewrite Em in E. apply Some_inj in E. subst m. destruct (chain_treeof n n ltac:(lia)) as [H1 H2 H3 H4 H5].
      exists (chain_bt n n (n - 1)). split; [| split; [rewrite H2; f_equal; lia | split; [lia | split; assumption]]].
      rewrite H1, Enodes. apply map_ext. intro nd. unfold flip. f_equal. lia.
Qed.
