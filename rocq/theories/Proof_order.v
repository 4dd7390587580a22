(** Reordering rail-disjoint nodes: running a node list in program order or column by column gives the same field. *)
From Coq Require Import Reals Lra Lia List ZArith Permutation Bool FunctionalExtensionality.
From Verif Require Import Cx Arr Spec_circuit Model_coupling Model_forward Spec_mesh Proof_node Proof_mesh Proof_forward
  Proof_forward2 Proof_forward3 Proof_forward4 Proof_tree Proof_vector.
Import ListNotations.
Local Open Scope nat_scope.

Definition disj (a b : node) : Prop :=
  top a <> top b /\ top a <> bottom b /\ bottom a <> top b /\ bottom a <> bottom b.
Definition good (L : list node) : Prop := ForallOrdPairs (fun a b => (column a < column b)%Z \/ disj a b) L.
Definition opf (q : node -> quad) (nd : node) : op := (q nd, top nd, bottom nd).

Lemma apply_op_comm : forall q1 t1 b1 q2 t2 b2 v, t1 <> t2 -> t1 <> b2 -> b1 <> t2 -> b1 <> b2 ->
  apply_op (q1, t1, b1) (apply_op (q2, t2, b2) v) = apply_op (q2, t2, b2) (apply_op (q1, t1, b1) v).
Proof.
  intros q1 t1 b1 q2 t2 b2 v H1 H2 H3 H4. unfold apply_op.
  assert (Hne : forall (A : Type) (f : nat -> A) i j x, i <> j -> upd f j x i = f i) by (intros; apply upd_neq; auto).
  rewrite !(Hne _ (upd v t2 _) t1), !(Hne _ (upd v t2 _) b1), !(Hne _ v t1), !(Hne _ v b1) by auto.
  rewrite !(Hne _ (upd v t1 _) t2), !(Hne _ (upd v t1 _) b2), !(Hne _ v t2), !(Hne _ v b2) by auto.
  apply functional_extensionality; intro j. unfold upd.
  destruct (Nat.eqb_spec j b1); destruct (Nat.eqb_spec j t1); destruct (Nat.eqb_spec j b2); destruct (Nat.eqb_spec j t2); subst; congruence.
Qed.

Lemma run_move : forall q a l v, (forall b, In b l -> disj a b) ->
  run (map (opf q) l) (apply_op (opf q a) v) = apply_op (opf q a) (run (map (opf q) l) v).
Proof.
  induction l as [| b l IH]; intros v H; auto. cbn [map]. rewrite !run_cons. rewrite <- IH by (intros; apply H; right; auto).
  f_equal. destruct (H b (or_introl eq_refl)) as (h1 & h2 & h3 & h4). unfold opf. symmetry. apply apply_op_comm; auto.
Qed.

Lemma good_cons : forall a L, good (a :: L) <-> (forall b, In b L -> (column a < column b)%Z \/ disj a b) /\ good L.
Proof.
  intros a L. split.
  - intro H. inversion H; subst. split; auto. rewrite Forall_forall in H2. auto.
  - intros [H1 H2]. constructor; auto. apply Forall_forall. auto.
Qed.
Lemma good_app : forall A B, good (A ++ B) <-> good A /\ good B /\
  (forall a b, In a A -> In b B -> (column a < column b)%Z \/ disj a b).
Proof.
  induction A as [| x A IH]; intros B; cbn [List.app].
  - split; [intro H; split; [constructor | split; auto; intros ? ? []] | tauto].
  - rewrite !good_cons, IH. split.
    + intros (H1 & H2 & H3 & H4). repeat split; auto.
      * intros b Hb. apply H1. apply in_or_app; auto.
      * intros a b [<- | Ha] Hb; [apply H1; apply in_or_app; auto | auto].
    + intros ((H1 & H2) & H3 & H4). repeat split; auto.
      * intros b Hb. apply in_app_or in Hb. destruct Hb; auto. apply H4; [left; auto | auto].
      * intros a b Ha Hb. apply H4; [right; auto | auto].
Qed.
Lemma good_filter : forall f L, good L -> good (filter f L).
Proof.
  induction L as [| a L IH]; intros H; auto. apply good_cons in H. destruct H as [H1 H2]. cbn [filter].
  destruct (f a); auto. apply good_cons. split; auto. intros b Hb. apply filter_In in Hb. apply H1; tauto.
Qed.

(** Moving the last column to the end. *)
Lemma split_last_col : forall q N L v, good L -> (forall nd, In nd L -> (column nd <= N)%Z) ->
  run (map (opf q) L) v =
  run (map (opf q) (filter (fun nd => negb (Z.eqb (column nd) N)) L ++ filter (fun nd => Z.eqb (column nd) N) L)) v.
Proof.
  induction L as [| a L IH]; intros v HG Hc; auto. apply good_cons in HG. destruct HG as [Ha HG].
  cbn [map filter]. rewrite run_cons, IH by (auto; intros; apply Hc; right; auto).
  destruct (Z.eqb_spec (column a) N) as [E | E]; cbn [negb].
  - rewrite !map_app, !run_app. cbn [map]. rewrite run_cons. f_equal. apply run_move.
    intros b Hb. apply filter_In in Hb. destruct Hb as [Hb Hb']. destruct (Z.eqb_spec (column b) N) as [E' | E']; [discriminate |].
    destruct (Ha b Hb) as [Hlt | Hd]; auto. specialize (Hc b (or_intror Hb)). lia.
  - reflexivity.
Qed.

Lemma sort_run : forall q N L v, good L -> (forall nd, In nd L -> (0 <= column nd < Z.of_nat N)%Z) ->
  run (map (opf q) L) v =
  run (map (opf q) (concat (map (fun c => nodes_in_column L (Z.of_nat c)) (seq 0 N)))) v.
Proof.
  intros q N. induction N as [| N IH]; intros L v HG Hc.
  - destruct L as [| a L]; auto. specialize (Hc a (or_introl eq_refl)). lia.
  - rewrite (split_last_col q (Z.of_nat N) L v HG) by (intros nd Hin; specialize (Hc nd Hin); lia).
    rewrite seq_S, (map_app (fun c => nodes_in_column L (Z.of_nat c))), concat_app. cbn [map concat plus]. rewrite app_nil_r.
    set (L1 := filter (fun nd => negb (Z.eqb (column nd) (Z.of_nat N))) L).
    assert (E : map (fun c => nodes_in_column L (Z.of_nat c)) (seq 0 N) = map (fun c => nodes_in_column L1 (Z.of_nat c)) (seq 0 N)).
    { apply map_ext_in. intros c Hin. apply in_seq in Hin. unfold nodes_in_column, L1. clear HG Hc IH L1.
      induction L as [| a L IHl]; auto. cbn [filter]. rewrite IHl.
      destruct (Z.eqb_spec (column a) (Z.of_nat N)); cbn [negb filter].
      - destruct (Z.eqb_spec (column a) (Z.of_nat c)); [lia | reflexivity].
      - reflexivity. }
    rewrite E, !map_app, !run_app. f_equal. apply IH.
    + apply good_filter; auto.
    + intros nd Hin. unfold L1 in Hin. apply filter_In in Hin. destruct Hin as [Hin Hx]. specialize (Hc nd Hin).
      destruct (Z.eqb_spec (column nd) (Z.of_nat N)); [discriminate | lia].
Qed.

(** Rail-disjointness of a column as a pairwise property, both ways. *)
Lemma nodup_pairs : forall l, NoDup (map top l ++ map bottom l) -> ForallOrdPairs disj l.
Proof.
  induction l as [| a l IH]; intros H; constructor.
  - cbn in H. apply NoDup_cons_iff in H. destruct H as [H1 H2].
    apply NoDup_remove in H2. destruct H2 as [H2 H3].
    apply Forall_forall. intros b Hb. unfold disj.
    assert (In (top b) (map top l)) by (apply in_map; auto). assert (In (bottom b) (map bottom l)) by (apply in_map; auto).
    rewrite in_app_iff in H1, H3. cbn in H1. repeat split; intro E; try rewrite E in *; intuition congruence.
  - cbn in H. apply NoDup_cons_iff in H. destruct H as [H1 H2]. apply NoDup_remove in H2. apply IH. tauto.
Qed.
Lemma pairs_nodup : forall l, ForallOrdPairs disj l -> (forall nd, In nd l -> top nd <> bottom nd) ->
  NoDup (map top l ++ map bottom l).
Proof.
  induction l as [| a l IH]; intros H Htb; [constructor |]. inversion H; subst. cbn.
  assert (Hin1 : forall b, In b l -> disj a b) by (apply Forall_forall; auto).
  assert (HN : NoDup (map top l ++ map bottom l)) by (apply IH; auto; intros; apply Htb; right; auto).
  assert (Hb : ~ In (bottom a) (map top l ++ map bottom l)).
  { rewrite in_app_iff, !in_map_iff. intros [(b & E & Hb) | (b & E & Hb)]; destruct (Hin1 b Hb) as (h1 & h2 & h3 & h4); congruence. }
  assert (Ht : ~ In (top a) (map top l ++ map bottom l)).
  { rewrite in_app_iff, !in_map_iff. intros [(b & E & Hb') | (b & E & Hb')]; destruct (Hin1 b Hb') as (h1 & h2 & h3 & h4); congruence. }
  constructor.
  - rewrite in_app_iff. cbn. rewrite in_app_iff in Ht. intros [H1 | [H1 | H1]]; try tauto. apply (Htb a (or_introl eq_refl)). auto.
  - eapply Permutation_NoDup; [apply Permutation_middle |]. constructor; auto.
Qed.

Lemma good_rails_disjoint : forall l, good l -> (forall nd, In nd l -> top nd <> bottom nd) -> rails_disjoint l.
Proof.
  intros l HG Htb c. cbv zeta. apply pairs_nodup.
  - clear Htb. induction l as [| a l IH]; [constructor |]. apply good_cons in HG. destruct HG as [H1 H2]. cbn [filter].
    destruct (Z.eqb_spec (column a) c) as [E | E]; auto. constructor; auto. apply Forall_forall. intros b Hb.
    apply filter_In in Hb. destruct Hb as [Hb Hc]. apply Z.eqb_eq in Hc. destruct (H1 b Hb); auto. lia.
  - intros nd Hin. apply filter_In in Hin. apply Htb. tauto.
Qed.

Lemma pairs_good : forall l, ForallOrdPairs disj l -> good l.
Proof. intros l H. induction H; constructor; auto. eapply Forall_impl; [| eauto]. cbn; auto. Qed.

Lemma good_in_order : forall l N, rails_disjoint l ->
  good (concat (map (fun c => nodes_in_column l (Z.of_nat c)) (seq 0 N))).
Proof.
  intros l N Hd. induction N as [| N IH]; [constructor |].
  rewrite seq_S, map_app, concat_app. cbn [map concat plus]. rewrite app_nil_r. apply good_app. repeat split; auto.
  - apply pairs_good, nodup_pairs. apply Hd.
  - intros a b Ha Hb. left. apply filter_In in Hb. destruct Hb as [_ Hb]. apply Z.eqb_eq in Hb.
    apply in_concat in Ha. destruct Ha as (x & Hx & Ha). apply in_map_iff in Hx. destruct Hx as (c & <- & Hc). apply in_seq in Hc.
    apply filter_In in Ha. destruct Ha as [_ Ha]. apply Z.eqb_eq in Ha. lia.
Qed.

Lemma filter_concat_col : forall l N c, (forall nd, In nd l -> (0 <= column nd < Z.of_nat N)%Z) ->
  nodes_in_column (concat (map (fun c => nodes_in_column l (Z.of_nat c)) (seq 0 N))) c = nodes_in_column l c.
Proof.
  intros l N c Hl.
  assert (HX : forall M, nodes_in_column (concat (map (fun c => nodes_in_column l (Z.of_nat c)) (seq 0 M))) c =
     if (Z.leb 0 c && Z.ltb c (Z.of_nat M))%bool then nodes_in_column l c else []).
  { induction M as [| M IH].
    - cbn [seq map concat]. destruct (Z.leb_spec 0 c); destruct (Z.ltb_spec c (Z.of_nat 0)); try reflexivity. lia.
    - rewrite seq_S, map_app, concat_app. cbn [map concat plus]. rewrite app_nil_r.
      change (nodes_in_column ?x c) with (in_col c x) in *. rewrite in_col_app. rewrite IH.
      assert (E : in_col c (nodes_in_column l (Z.of_nat M)) = if Z.eqb c (Z.of_nat M) then in_col c l else []).
      { unfold in_col, nodes_in_column. destruct (Z.eqb_spec c (Z.of_nat M)) as [-> | E].
        - clear. induction l as [| a l IH]; auto. cbn [filter]. destruct (Z.eqb (column a) (Z.of_nat M)) eqn:Ea; cbn [filter]; rewrite ?Ea, IH; auto.
        - clear - E. induction l as [| a l IH]; auto. cbn [filter]. destruct (Z.eqb_spec (column a) (Z.of_nat M)) as [Ea | Ea]; cbn [filter]; auto.
          destruct (Z.eqb_spec (column a) c); [congruence | auto]. }
      rewrite E. destruct (Z.leb_spec 0 c); destruct (Z.ltb_spec c (Z.of_nat M)); destruct (Z.ltb_spec c (Z.of_nat (S M)));
        destruct (Z.eqb_spec c (Z.of_nat M)); cbn [andb]; try lia; try reflexivity. apply app_nil_r. }
  rewrite HX. destruct (Z.leb_spec 0 c); destruct (Z.ltb_spec c (Z.of_nat N)); cbn [andb]; auto;
    symmetry; apply in_col_none; intros nd Hin E; specialize (Hl nd Hin); lia.
Qed.

(** matrix_fn of a mesh without errors and losses. *)
Lemma zero_matrix : forall s m p x, wf_mesh m -> style m = s ->
  (forall e, In e (bs_errors m) -> e = (0, 0)%R) -> (forall e, In e (losses m) -> e = (0, 0)%R) ->
  matrix_fn m false p x = Some (apply_gammas (gammas p) (run (node_ops s p (in_order m)) x)).
Proof.
  intros s m p x Hwf Hst Herrs Hloss.
  destruct (wf_matrix_total m false p x Hwf) as [y Hy]. rewrite Hy.
  destruct (matrix_fn_run _ _ _ _ _ (proj1 Hwf) Hy) as (cols & Hc & _ & ->).
  rewrite (mesh_ops_in_order m p cols) by (auto; apply Hwf). f_equal. f_equal. f_equal.
  unfold node_ops. apply map_ext_in. intros nd Hin. f_equal. f_equal. unfold mzis, pn, err_at, loss_at.
  rewrite Hst. f_equal; apply nth_const; auto.
Qed.
