(** Balanced trees and chains (C10, C11). *)
From Coq Require Import Reals Lra Lia List ZArith Permutation Bool.
From Verif Require Import Cx Arr Spec_circuit Model_coupling Model_forward Model_vector Spec_mesh Spec_tree
  Proof_mesh Proof_forward Proof_forward2.
Import ListNotations.
Local Open Scope nat_scope.

Lemma log2_up_half : forall n, 2 <= n -> Nat.log2_up n = S (Nat.log2_up (n - n / 2)).
Proof.
  intros n Hn. pose proof (Nat.div_mod n 2 ltac:(lia)) as E. pose proof (Nat.mod_upper_bound n 2 ltac:(lia)).
  set (k := n - n / 2) in *.
  destruct (Nat.eq_dec k 1) as [Ek | Ek].
  - assert (n = 2) by lia. subst n. rewrite Ek. reflexivity.
  - assert (Hk : 1 < k) by lia. destruct (Nat.log2_up_spec k Hk) as [H1 H2].
    apply Nat.log2_up_unique; [lia |]. rewrite Nat.pred_succ, Nat.pow_succ_r'.
    split; [| lia].
    assert (H3 : 2 ^ Nat.log2_up k = 2 * 2 ^ Nat.pred (Nat.log2_up k)).
    { rewrite <- Nat.pow_succ_r'. f_equal. pose proof (Nat.log2_up_pos k Hk). lia. }
    rewrite H3. lia.
Qed.
Lemma log2_up_mono : forall a b, a <= b -> Nat.log2_up a <= Nat.log2_up b.
Proof. intros; apply Nat.log2_up_le_mono; auto. Qed.

Lemma split_nth : forall (l : list nat) k d, k < length l -> l = firstn k l ++ nth k l d :: skipn (S k) l.
Proof.
  induction l as [| a l IH]; intros k d H; simpl in H; [lia |].
  destruct k; [reflexivity |]. simpl. f_equal. apply IH. lia.
Qed.

Lemma NoDup_app_intro : forall (A : Type) (l r : list A), NoDup l -> NoDup r ->
  (forall x, In x l -> In x r -> False) -> NoDup (l ++ r).
Proof.
  induction l as [| a l IH]; simpl; intros r Hl Hr H; auto. inversion Hl; subst. constructor.
  - rewrite in_app_iff. intros [H1 | H1]; [auto | eapply H; eauto].
  - apply IH; auto. intros x Hx Hy. eapply H; eauto.
Qed.

Definition in_col (c : Z) (l : list node) : list node := filter (fun nd => Z.eqb (column nd) c) l.
Lemma in_col_In : forall c l nd, In nd (in_col c l) <-> In nd l /\ column nd = c.
Proof. intros. unfold in_col. rewrite filter_In, Z.eqb_eq. tauto. Qed.
Lemma in_col_app : forall c l r, in_col c (l ++ r) = in_col c l ++ in_col c r.
Proof. intros. unfold in_col. induction l as [| a l IH]; simpl; auto. rewrite IH. destruct (Z.eqb _ _); auto. Qed.
Lemma in_col_none : forall c l, (forall nd, In nd l -> column nd <> c) -> in_col c l = [].
Proof.
  intros c l H. unfold in_col. induction l as [| a l IH]; simpl; auto.
  destruct (Z.eqb_spec (column a) c); [exfalso; eapply H; [left; eauto | auto] | apply IH; intros; apply H; right; auto].
Qed.

(** Two lists of nodes on separate rail ranges. *)
Lemma disjoint_ranges : forall k l1 l2, (forall nd, In nd l1 -> top nd < k /\ bottom nd < k) ->
  (forall nd, In nd l2 -> k <= top nd /\ k <= bottom nd) ->
  NoDup (map top l1 ++ map bottom l1) -> NoDup (map top l2 ++ map bottom l2) ->
  NoDup (map top (l1 ++ l2) ++ map bottom (l1 ++ l2)).
Proof.
  intros k l1 l2 H1 H2 N1 N2. rewrite !map_app.
  apply (Permutation_NoDup (l := (map top l1 ++ map bottom l1) ++ (map top l2 ++ map bottom l2))).
  - rewrite <- !app_assoc. apply Permutation_app_head.
    rewrite !app_assoc. apply Permutation_app_tail. apply Permutation_app_comm.
  - apply NoDup_app_intro; auto. intros x Hx Hy. rewrite in_app_iff, !in_map_iff in Hx, Hy.
    destruct Hx as [[a [Ea Ha]] | [a [Ea Ha]]]; destruct Hy as [[b [Eb Hb]] | [b [Eb Hb]]];
      specialize (H1 _ Ha); specialize (H2 _ Hb); lia.
Qed.

Record tree_spec (l : list node) (indices : list nat) (r start : nat) (col : Z) : Prop := {
  ts_ids : Permutation (map node_id l) indices;
  ts_tops : Permutation (map top l) (seq start (length indices));
  ts_range : forall nd, In nd l -> start <= top nd /\ top nd < bottom nd /\ bottom nd <= start + length indices /\
     n_of nd = r /\ loss nd = (0, 0)%R /\ bs_error nd = (0, 0)%R;
  ts_col : forall nd, In nd l -> (col <= column nd < col + Z.of_nat (Nat.log2_up (length indices + 1)))%Z;
  ts_disj : forall c, NoDup (map top (in_col c l) ++ map bottom (in_col c l));
  ts_order : forall a b, In a l -> In b l -> bottom b = top a -> (column a < column b)%Z;
  ts_full : forall c, (col <= c < col + Z.of_nat (Nat.log2_up (length indices + 1)))%Z ->
     exists nd, In nd l /\ column nd = c }.

Lemma tree_rec_spec : forall fuel indices r start col, length indices < fuel ->
  exists l, tree_rec fuel indices r start col = Some l /\ tree_spec l indices r start col.
Proof.
  induction fuel as [| fuel IH]; intros indices r start col Hf; [lia |].
  cbn [tree_rec]. set (n := length indices + 1) in *. set (m := n / 2) in *.
  destruct (Nat.eqb_spec n 1) as [En | En].
  - exists []. split; auto. assert (indices = []) by (apply length_zero_iff_nil; lia). subst indices. simpl in *.
    constructor; simpl; auto; try (intros; contradiction).
    + intros; constructor.
    + change (Nat.log2_up 1) with 0. intros; lia.
  - assert (Hn : 2 <= n) by lia.
    pose proof (Nat.div_mod n 2 ltac:(lia)) as E. pose proof (Nat.mod_upper_bound n 2 ltac:(lia)) as E'. fold m in E.
    assert (Hm : 1 <= m) by lia. assert (Hmn : m < n) by lia.
    assert (L1 : length (firstn (m - 1) indices) = m - 1) by (rewrite firstn_length; lia).
    assert (L2 : length (skipn m indices) = n - 1 - m) by (rewrite skipn_length; lia).
    destruct (IH (firstn (m - 1) indices) r start (col + 1)%Z ltac:(lia)) as (l1 & E1 & S1).
    destruct (IH (skipn m indices) r (start + m) (col + 1)%Z ltac:(lia)) as (l2 & E2 & S2).
    rewrite E1. cbn [obind]. rewrite E2. cbn [obind].
    set (root := plain_node (nth (m - 1) indices 0) r (start + m - 1) (start + n - 1)
       (length (skipn m indices) + 1) (length (firstn (m - 1) indices) + 1) col).
    exists (root :: l1 ++ l2). split; [reflexivity |].
    destruct S1 as [I1 T1 R1 C1 D1 O1 F1]. destruct S2 as [I2 T2 R2 C2 D2 O2 F2].
    rewrite L1, L2 in *.
    assert (Hd : Nat.log2_up n = S (Nat.log2_up (n - m))) by (apply log2_up_half; auto).
    assert (Hd1 : Nat.log2_up (m - 1 + 1) <= Nat.log2_up (n - m)) by (apply log2_up_mono; lia).
    replace (n - 1 - m + 1) with (n - m) in * by lia.
    assert (Li : length indices = n - 1) by lia.
    constructor; rewrite ?Li; replace (n - 1 + 1) with n by lia; rewrite ?Hd.
    + cbn [map]. rewrite map_app. change (node_id root) with (nth (m - 1) indices 0).
      assert (E3 := split_nth indices (m - 1) 0 ltac:(lia)). replace (S (m - 1)) with m in E3 by lia.
      eapply perm_trans; [apply perm_skip, Permutation_app; [exact I1 | exact I2] |].
      eapply perm_trans; [apply Permutation_middle |]. rewrite <- E3. apply Permutation_refl.
    + cbn [map]. rewrite map_app. change (top root) with (start + m - 1).
      eapply perm_trans; [apply perm_skip, Permutation_app; [exact T1 | exact T2] |].
      set (q := n - 1 - m). replace (n - 1) with ((m - 1) + (1 + q)) by (unfold q; lia). rewrite !seq_app.
      replace (start + (m - 1)) with (start + m - 1) by lia. cbn [seq app].
      replace (start + m - 1 + 1) with (start + m) by lia.
      apply Permutation_middle.
    + intros nd [<- | H]; [| apply in_app_or in H; destruct H as [H | H]].
      * simpl. repeat split; lia.
      * destruct (R1 nd H) as (a & b & c & d). repeat split; try tauto; try lia.
      * destruct (R2 nd H) as (a & b & c & d). repeat split; try tauto; try lia.
    + intros nd [<- | H]; [| apply in_app_or in H; destruct H as [H | H]].
      * simpl. lia.
      * specialize (C1 nd H). lia.
      * specialize (C2 nd H). lia.
    + intro c. change (root :: l1 ++ l2) with ([root] ++ (l1 ++ l2)). rewrite in_col_app.
      destruct (Z.eq_dec c col) as [-> | Hc].
      * rewrite (in_col_none col (l1 ++ l2)).
        -- rewrite app_nil_r. unfold in_col; simpl. rewrite Z.eqb_refl. simpl.
           constructor; [simpl; lia | constructor; [simpl; auto | constructor]].
        -- intros nd H. apply in_app_or in H; destruct H as [H | H]; [specialize (C1 nd H) | specialize (C2 nd H)]; lia.
      * rewrite (in_col_none c [root]).
        -- change ([] ++ in_col c (l1 ++ l2)) with (in_col c (l1 ++ l2)). rewrite in_col_app. apply (disjoint_ranges (start + m)); auto.
           ++ intros nd H. apply in_col_In in H. destruct (R1 nd (proj1 H)) as (a & b & d & _). lia.
           ++ intros nd H. apply in_col_In in H. destruct (R2 nd (proj1 H)) as (a & b & d & _). lia.
        -- intros nd [<- | []]. simpl. auto.
    + intros a b Ha Hb Heq.
      destruct Ha as [<- | Ha]; [| apply in_app_or in Ha; destruct Ha as [Ha | Ha]];
      (destruct Hb as [<- | Hb]; [| apply in_app_or in Hb; destruct Hb as [Hb | Hb]]); simpl in *;
      repeat match goal with
      | H : In ?x l1 |- _ => let P := fresh in let Q := fresh in pose proof (R1 x H) as P; pose proof (C1 x H) as Q; revert H
      | H : In ?x l2 |- _ => let P := fresh in let Q := fresh in pose proof (R2 x H) as P; pose proof (C2 x H) as Q; revert H
      end; intros; try lia; eauto.
    + intros c Hc. destruct (Z.eq_dec c col) as [-> | Hne].
      * exists root. split; [left; auto | reflexivity].
      * destruct (F2 c ltac:(lia)) as (nd & H1 & H2). exists nd. split; auto. right. apply in_or_app; auto.
Qed.

(** ** From node lists to meshes *)
Lemma zmax_spec : forall l d, (forall x, In x l -> (x <= zmax l d)%Z) /\ (d <= zmax l d)%Z /\ (zmax l d = d \/ In (zmax l d) l).
Proof.
  induction l as [| a l IH]; intros d; simpl.
  - split; [intros x [] | split; [lia | auto]].
  - destruct (IH d) as (H1 & H2 & H3). split; [| split].
    + intros x [<- | H]; [lia |]. specialize (H1 x H). lia.
    + lia.
    + destruct (Z.max_spec a (zmax l d)) as [[_ ->] | [_ ->]]; auto. destruct H3; auto.
Qed.

Lemma mk_mesh_cols : forall nd0 l0 s m, mk_mesh (nd0 :: l0) s = Some m ->
  (forall x, In x (nd0 :: l0) -> (column x <= num_columns m - 1)%Z) /\
  (exists x, In x (nd0 :: l0) /\ column x = (num_columns m - 1)%Z).
Proof.
  intros nd0 l0 s m H. unfold mk_mesh in H. set (l := nd0 :: l0) in *.
  assert (E : num_columns m = (zmax (map column l) (column nd0) + 1)%Z) by (injection H as <-; reflexivity). rewrite E. clear H E.
  destruct (zmax_spec (map column l) (column nd0)) as (H1 & H2 & H3). split.
  - intros x Hx. specialize (H1 (column x) (in_map _ _ _ Hx)). lia.
  - destruct H3 as [H3 | H3].
    + exists nd0. split; [left; auto | lia].
    + apply in_map_iff in H3. destruct H3 as [x [E Hx]]. exists x. split; auto. lia.
Qed.

(** Inverted-column mesh of a node list with distinct ids. *)
Lemma inverted_mesh : forall l s d r, l <> [] -> NoDup (map node_id l) ->
  (forall nd, In nd l -> n_of nd = r) ->
  (forall nd, In nd l -> (0 <= column nd < Z.of_nat d)%Z) -> (exists nd, In nd l /\ column nd = (Z.of_nat d - 1)%Z) ->
  exists m, obind (mk_mesh l s) (fun m => Some (invert_columns m)) = Some m /\ style m = s /\ n_rails m = r /\
    nodes m = map (fun nd => with_column nd (Z.of_nat d - 1 - column nd)%Z) l /\
    bs_errors m = map bs_error l /\ losses m = map loss l /\ num_columns m = Z.of_nat d.
Proof.
  intros l s d r Hne Hnd Hr Hcol Hmax.
  destruct l as [| nd0 l0]; [congruence |].
  destruct (mk_mesh (nd0 :: l0) s) as [m0 |] eqn:E; [| discriminate].
  destruct (mk_mesh_cols _ _ _ _ E) as [H1 [x [Hx Ex]]].
  assert (Hn : num_columns m0 = Z.of_nat d).
  { destruct Hmax as [y [Hy Ey]]. specialize (H1 y Hy). specialize (Hcol x Hx). lia. }
  exists (invert_columns m0). split; [reflexivity |].
  unfold mk_mesh in E. rewrite renumber_single in E by auto. injection E as <-. cbn in Hn |- *.
  rewrite Hn. repeat split; auto. apply Hr; left; auto.
Qed.

Lemma in_col_shift : forall (g : node -> Z) (f : Z -> Z) l c, (forall nd, In nd l -> g nd = c <-> column nd = f c) ->
  in_col c (map (fun nd => with_column nd (g nd)) l) = map (fun nd => with_column nd (g nd)) (in_col (f c) l).
Proof.
  intros g f l c H. unfold in_col. induction l as [| a l IH]; simpl; auto.
  rewrite IH by (intros; apply H; right; auto).
  destruct (Z.eqb_spec (g a) c) as [E | E]; destruct (Z.eqb_spec (column a) (f c)) as [E' | E']; simpl; auto;
    exfalso; rewrite (H a (or_introl eq_refl)) in E; auto.
Qed.

Lemma nulling_wf : forall n m d, (2 <= n)%nat -> nulling_network n m -> rails_disjoint (nodes m) ->
  (n <= n_rails m)%nat -> length (bs_errors m) = length (nodes m) ->
  num_columns m = d ->
  (forall c, (0 <= c < d)%Z -> exists nd, In nd (nodes m) /\ column nd = c) -> wf_mesh m.
Proof.
  intros n m d Hn (H1 & H2 & H3 & H4 & H5) Hd Hr Hl Hc Hf. split; [auto |]. split; [| split].
  - intros nd Hin. specialize (H4 nd Hin). repeat split; try lia.
    assert (Hi : In (node_id nd) (seq 0 (n - 1))) by (eapply Permutation_in; [exact H2 | apply in_map; auto]).
    apply in_seq in Hi. lia.
  - eapply Permutation_NoDup; [apply Permutation_sym; exact H2 | apply seq_NoDup].
  - rewrite Hc. auto.
Qed.

(** C10 *)
Lemma tree_balanced : forall n r s, (2 <= n)%nat -> (n <= r)%nat ->
  exists m, tree n r true s = Some m /\ style m = s /\ n_rails m = r /\ nulling_network n m /\
    rails_disjoint (nodes m) /\ num_columns m = Z.of_nat (Nat.log2_up n) /\
    (forall nd, In nd (nodes m) -> (0 <= column nd < num_columns m)%Z) /\
    (forall nd, In nd (nodes m) -> loss nd = (0, 0)%R /\ bs_error nd = (0, 0)%R /\ n_of nd = r) /\
    bs_errors m = map bs_error (nodes m) /\ losses m = map loss (nodes m) /\
    wf_mesh m.
Proof.
  intros n r s Hn Hr. unfold tree.
  destruct (tree_rec_spec n (seq 0 (n - 1)) r 0 0%Z) as (l & E & [I T R Cc D O F]); [rewrite seq_length; lia |].
  rewrite seq_length in *. replace (n - 1 + 1) with n in * by lia.
  rewrite E. cbn [obind].
  assert (Hpos : 0 < Nat.log2_up n) by (apply Nat.log2_up_pos; lia).
  destruct (inverted_mesh l s (Nat.log2_up n) r) as (m & Em & Es & En & Enodes & Ee & El & Enc).
  - intro Hl. subst l. destruct (F 0%Z ltac:(lia)) as (nd & [] & _).
  - eapply Permutation_NoDup; [apply Permutation_sym, I | apply seq_NoDup].
  - intros nd H. apply (R nd H).
  - intros nd H. apply (Cc nd H).
  - destruct (F (Z.of_nat (Nat.log2_up n) - 1)%Z ltac:(lia)) as (nd & H1 & H2). eauto.
  - exists m. split; [exact Em |]. split; [auto |]. split; [auto |].
    assert (HIn : forall nd, In nd (nodes m) -> exists a, In a l /\ nd = with_column a (Z.of_nat (Nat.log2_up n) - 1 - column a)%Z).
    { intros nd H. rewrite Enodes in H. apply in_map_iff in H. destruct H as [a [Ha H]]. eauto. }
    assert (Hnull : nulling_network n m).
    { unfold nulling_network. rewrite Enodes, map_length, !map_map. cbn [with_column node_id top].
      split; [| split; [exact I | split; [exact T | split]]].
      - rewrite <- (map_length node_id), (Permutation_length I), seq_length. auto.
      - intros nd H. rewrite <- Enodes in H. destruct (HIn nd H) as (a & Ha & ->). simpl.
        destruct (R a Ha) as (x & y & z & _). lia.
      - intros a b Ha Hb Heq. rewrite <- Enodes in Ha, Hb. destruct (HIn a Ha) as (a' & Ha' & ->).
        destruct (HIn b Hb) as (b' & Hb' & ->). simpl in *. specialize (O a' b' Ha' Hb' Heq). lia. }
    assert (Hdis : rails_disjoint (nodes m)).
    { intro c. change (NoDup (map top (in_col c (nodes m)) ++ map bottom (in_col c (nodes m)))).
      rewrite Enodes, (in_col_shift _ (fun c => Z.of_nat (Nat.log2_up n) - 1 - c)%Z) by (intros; lia).
      rewrite !map_map. exact (D _). }
    split; [auto |]. split; [auto |]. split; [auto |]. split; [| split; [| split; [| split]]].
    + intros nd H. destruct (HIn nd H) as (a & Ha & ->). simpl. rewrite Enc. specialize (Cc a Ha). lia.
    + intros nd H. destruct (HIn nd H) as (a & Ha & ->). simpl. destruct (R a Ha) as (_ & _ & _ & H1 & H2 & H3). auto.
    + rewrite Ee, Enodes, map_map. reflexivity.
    + rewrite El, Enodes, map_map. reflexivity.
    + apply (nulling_wf n m (Z.of_nat (Nat.log2_up n))); auto; try lia.
      * rewrite Ee, Enodes, !map_length. auto.
      * intros c Hc. destruct (F (Z.of_nat (Nat.log2_up n) - 1 - c)%Z ltac:(lia)) as (nd & H1 & H2).
        exists (with_column nd (Z.of_nat (Nat.log2_up n) - 1 - column nd)%Z). split.
        -- rewrite Enodes. apply in_map_iff. eauto.
        -- simpl. lia.
Qed.

(** C11 *)
Lemma chain_In : forall n r nd, In nd (chain_nodes n r) <-> exists i, i < n - 1 /\
  nd = plain_node i r i (i + 1) 1 (n - i - 1) (Z.of_nat n - 2 - Z.of_nat i).
Proof.
  intros n r nd. unfold chain_nodes. rewrite in_map_iff. split.
  - intros [i [E H]]. apply in_rev in H. apply in_seq in H. exists i. split; [lia | auto].
  - intros [i [Hi E]]. exists i. split; auto. apply -> in_rev. apply in_seq. lia.
Qed.
Lemma tree_chain : forall n r s, (2 <= n)%nat -> (n <= r)%nat ->
  exists m, tree n r false s = Some m /\ style m = s /\ n_rails m = r /\ nulling_network n m /\
    rails_disjoint (nodes m) /\ num_columns m = Z.of_nat (n - 1) /\
    (forall nd, In nd (nodes m) -> top nd = node_id nd /\ bottom nd = (node_id nd + 1)%nat /\ column nd = Z.of_nat (node_id nd)) /\
    (forall nd, In nd (nodes m) -> loss nd = (0, 0)%R /\ bs_error nd = (0, 0)%R /\ n_of nd = r) /\
    bs_errors m = map bs_error (nodes m) /\ losses m = map loss (nodes m) /\
    wf_mesh m.
Proof.
  intros n r s Hn Hr. unfold tree. cbn [obind].
  assert (Ids : map node_id (chain_nodes n r) = rev (seq 0 (n - 1))).
  { unfold chain_nodes. rewrite map_map. cbn [node_id plain_node]. apply map_id. }
  assert (Tops : map top (chain_nodes n r) = rev (seq 0 (n - 1))).
  { unfold chain_nodes. rewrite map_map. cbn [top plain_node]. apply map_id. }
  destruct (inverted_mesh (chain_nodes n r) s (n - 1) r) as (m & Em & Es & En & Enodes & Ee & El & Enc).
  - intro H. apply (f_equal (@length _)) in H. unfold chain_nodes in H. rewrite map_length, rev_length, seq_length in H. simpl in H. lia.
  - rewrite Ids. apply NoDup_rev, seq_NoDup.
  - intros nd H. apply chain_In in H. destruct H as (i & Hi & ->). reflexivity.
  - intros nd H. apply chain_In in H. destruct H as (i & Hi & ->). simpl. lia.
  - exists (plain_node 0 r 0 (0 + 1) 1 (n - 0 - 1) (Z.of_nat n - 2 - Z.of_nat 0)). split; [| simpl; lia].
    apply chain_In. exists 0. split; [lia | reflexivity].
  - exists m. split; [exact Em |]. split; [auto |]. split; [auto |].
    assert (HIn : forall nd, In nd (nodes m) <-> exists i, i < n - 1 /\
       nd = plain_node i r i (i + 1) 1 (n - i - 1) (Z.of_nat i)).
    { intros nd. rewrite Enodes, in_map_iff. split.
      - intros [a [E H]]. apply chain_In in H. destruct H as (i & Hi & ->). exists i. split; auto.
        rewrite <- E. unfold with_column, plain_node; simpl. f_equal. lia.
      - intros (i & Hi & ->). exists (plain_node i r i (i + 1) 1 (n - i - 1) (Z.of_nat n - 2 - Z.of_nat i)). split.
        + unfold with_column, plain_node; simpl. f_equal. lia.
        + apply chain_In. eauto. }
    assert (Hnull : nulling_network n m).
    { unfold nulling_network. split; [| split; [| split; [| split]]].
      - rewrite Enodes, map_length. unfold chain_nodes. rewrite map_length, rev_length, seq_length. auto.
      - rewrite Enodes, map_map. cbn [with_column node_id]. change (map (fun x => node_id x) (chain_nodes n r)) with (map node_id (chain_nodes n r)). rewrite Ids. apply Permutation_sym, Permutation_rev.
      - rewrite Enodes, map_map. cbn [with_column top]. change (map (fun x => top x) (chain_nodes n r)) with (map top (chain_nodes n r)). rewrite Tops. apply Permutation_sym, Permutation_rev.
      - intros nd H. apply HIn in H. destruct H as (i & Hi & ->). simpl. lia.
      - intros a b Ha Hb. apply HIn in Ha, Hb. destruct Ha as (i & Hi & ->). destruct Hb as (j & Hj & ->). simpl. lia. }
    assert (Hdis : rails_disjoint (nodes m)).
    { intro c. change (NoDup (map top (in_col c (nodes m)) ++ map bottom (in_col c (nodes m)))).
      apply NoDup_app_intro.
      - apply (NoDup_map_inv Z.of_nat). assert (HN : NoDup (map top (nodes m))).
        { eapply Permutation_NoDup; [apply Permutation_sym; apply Hnull | apply seq_NoDup]. }
        rewrite map_map. revert HN. unfold in_col. generalize (nodes m). induction l as [| a l IH]; simpl; intros H; [constructor |].
        inversion H; subst. destruct (Z.eqb (column a) c); simpl; auto. constructor; auto.
        intro Hx. apply in_map_iff in Hx. destruct Hx as [y [Ey Hy]]. apply filter_In in Hy. apply H2.
        apply Nat2Z.inj in Ey. rewrite <- Ey. apply in_map. tauto.
      - assert (HN : NoDup (map bottom (nodes m))).
        { rewrite Enodes, map_map. cbn [with_column bottom]. unfold chain_nodes. rewrite map_map. cbn [bottom plain_node].
          rewrite (map_ext _ S) by (intros; lia). apply FinFun.Injective_map_NoDup; [intros x y; lia | apply NoDup_rev, seq_NoDup]. }
        revert HN. unfold in_col. generalize (nodes m). induction l as [| a l IH]; simpl; intros H; [constructor |].
        inversion H; subst. destruct (Z.eqb (column a) c); simpl; auto. constructor; auto.
        intro Hx. apply in_map_iff in Hx. destruct Hx as [y [Ey Hy]]. apply filter_In in Hy. apply H2.
        rewrite <- Ey. apply in_map. tauto.
      - intros x Hx Hy. apply in_map_iff in Hx, Hy. destruct Hx as (a & Ea & Ha). destruct Hy as (b & Eb & Hb).
        apply in_col_In in Ha, Hb. destruct Ha as [Ha Ca]. destruct Hb as [Hb Cb].
        apply HIn in Ha, Hb. destruct Ha as (i & Hi & ->). destruct Hb as (j & Hj & ->). simpl in *. lia. }
    split; [auto |]. split; [auto |]. split; [auto |]. split; [| split; [| split; [| split]]].
    + intros nd H. apply HIn in H. destruct H as (i & Hi & ->). simpl. lia.
    + intros nd H. apply HIn in H. destruct H as (i & Hi & ->). simpl. auto.
    + rewrite Ee, Enodes, map_map. reflexivity.
    + rewrite El, Enodes, map_map. reflexivity.
    + apply (nulling_wf n m (Z.of_nat (n - 1))); auto; try lia.
      * rewrite Ee, Enodes, !map_length. auto.
      * intros c Hc. exists (plain_node (Z.to_nat c) r (Z.to_nat c) (Z.to_nat c + 1) 1 (n - Z.to_nat c - 1) (Z.of_nat (Z.to_nat c))).
        split; [apply HIn; exists (Z.to_nat c); split; [lia | auto] | simpl; lia].
Qed.
