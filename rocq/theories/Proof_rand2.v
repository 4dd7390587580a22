(** Balanced trees with random splits (C144). *)
From Coq Require Import Reals Lra Lia List ZArith Permutation Bool FunctionalExtensionality.
From Verif Require Import Cx Arr Spec_circuit Model_coupling Model_forward Model_vector Spec_mesh Spec_tree
  Proof_mesh Proof_forward Proof_forward2 Proof_tree Proof_vector Proof_columns Proof_null Proof_node Model_rand Spec_rand Proof_rand.
Import ListNotations.
Local Open Scope R_scope.

Section split.
Variable s : nat -> R.
Lemma loc_in : forall (P : nat -> Prop) A w w', (forall nd, In nd A -> P (top nd) /\ P (bottom nd)) -> (forall r, P r -> w r = w' r) ->
  forall r, P r -> fold_right (wt s) w A r = fold_right (wt s) w' A r.
Proof.
  intros P. induction A as [| nd A IH]; intros w w' HA Hw r Hr; [apply Hw; auto |]. cbn [fold_right].
  destruct (HA nd (or_introl eq_refl)) as [Pt Pb]. assert (I : forall q, P q -> fold_right (wt s) w A q = fold_right (wt s) w' A q) by (apply IH; auto; intros; apply HA; right; auto).
  unfold wt at 1 3. rewrite !I by auto. unfold upd. destruct (Nat.eqb r (bottom nd)); auto. destruct (Nat.eqb r (top nd)); auto.
Qed.
Lemma loc_out : forall (P : nat -> Prop) B w, (forall nd, In nd B -> ~ P (top nd) /\ ~ P (bottom nd)) -> forall r, P r -> fold_right (wt s) w B r = w r.
Proof.
  intros P. induction B as [| nd B IH]; intros w HB r Hr; [reflexivity |]. cbn [fold_right].
  destruct (HB nd (or_introl eq_refl)) as [Pt Pb]. unfold wt at 1. rewrite upd_neq by (intros ->; auto). rewrite upd_neq by (intros ->; auto).
  apply IH; auto. intros; apply HB; right; auto.
Qed.
(** Column after column, starting with column [col]. *)
Fixpoint colrun (l : list node) (col : Z) (D : nat) (w : nat -> R) : nat -> R :=
  match D with O => w | S D => colrun l (col + 1) D (fold_right (wt s) w (in_col col l)) end.
Lemma colrun_loc : forall (P : nat -> Prop) l l' D col w w', (forall c, exists A B, in_col c l = A ++ in_col c l' ++ B /\ (forall nd, In nd (A ++ B) -> ~ P (top nd) /\ ~ P (bottom nd))) ->
  (forall nd, In nd l' -> P (top nd) /\ P (bottom nd)) -> (forall r, P r -> w r = w' r) -> forall r, P r -> colrun l col D w r = colrun l' col D w' r.
Proof.
  intros P l l'. induction D; intros col w w' Hl Hl' Hw r Hr; [apply Hw; auto |]. cbn [colrun]. apply IHD; auto.
  intros q Hq. destruct (Hl col) as (A & B & E & H). rewrite E, !fold_right_app.
  rewrite (loc_out P A) by (auto; intros; apply H; apply in_or_app; auto).
  apply loc_in with (P := P); auto.
  - intros nd Hnd. apply in_col_In in Hnd. apply Hl'. tauto.
  - intros x Hx. rewrite (loc_out P B) by (auto; intros; apply H; apply in_or_app; auto). apply Hw; auto.
Qed.
Lemma colrun_nil : forall D col w, colrun [] col D w = w.
Proof. induction D; intros col w; [reflexivity |]. cbn [colrun]. apply IHD. Qed.
Lemma colrun_skip : forall l l' D col w, (forall c, (col <= c)%Z -> in_col c l = in_col c l') -> colrun l col D w = colrun l' col D w.
Proof.
  intros l l'. induction D; intros col w H; [reflexivity |]. cbn [colrun]. rewrite H by lia. apply IHD. intros c Hc. apply H. lia.
Qed.
Lemma tree_spread : forall fuel indices rails start col l D w,
  tree_rec fuel indices rails start col = Some l -> (length indices < fuel)%nat -> (Nat.log2_up (length indices + 1) <= D)%nat ->
  (forall nd, In nd l -> s (node_id nd) = INR (beta nd) / (INR (alpha nd) + INR (beta nd))) ->
  forall r, (start <= r <= start + length indices)%nat -> colrun l col D w r = w (start + length indices)%nat / INR (length indices + 1).
Proof.
  induction fuel as [| fuel IH]; intros indices rails start col l D w E Hf HD Hs r Hr; [lia |]. cbn [tree_rec] in E.
  set (n := (length indices + 1)%nat) in *. set (m := (n / 2)%nat) in *.
  destruct (Nat.eqb_spec n 1) as [En | En].
  - assert (l = []) by congruence. subst l. rewrite colrun_nil. rewrite En. replace r with (start + length indices)%nat by lia. cbn [INR]. field.
  - assert (Hn : (2 <= n)%nat) by (unfold n in *; lia). pose proof (Nat.div_mod n 2 ltac:(lia)) as Em. pose proof (Nat.mod_upper_bound n 2 ltac:(lia)) as Hmod. fold m in Em.
    assert (L1 : length (firstn (m - 1) indices) = (m - 1)%nat) by (rewrite firstn_length; unfold n in *; lia).
    assert (L2 : length (skipn m indices) = (n - 1 - m)%nat) by (rewrite skipn_length; unfold n in *; lia).
    assert (Hlen : length indices = (n - 1)%nat) by (unfold n in *; lia).
    destruct (tree_rec_spec fuel (firstn (m - 1) indices) rails start (col + 1)) as (l1 & E1 & T1); [lia |].
    destruct (tree_rec_spec fuel (skipn m indices) rails (start + m) (col + 1)) as (l2 & E2 & T2); [lia |].
    rewrite E1, E2 in E. cbn [obind] in E.
    set (root := plain_node (nth (m - 1) indices 0%nat) rails (start + m - 1) (start + n - 1) (length (skipn m indices) + 1) (length (firstn (m - 1) indices) + 1) col) in *.
    assert (El : l = root :: l1 ++ l2) by congruence. subst l. clear E.
    pose proof (log2_up_half n Hn) as Hlog. destruct D as [| D]; [lia |]. cbn [colrun].
    assert (C1' : forall nd, In nd l1 -> (col + 1 <= column nd)%Z) by (intros nd H; apply (ts_col _ _ _ _ _ T1 nd H)).
    assert (C2' : forall nd, In nd l2 -> (col + 1 <= column nd)%Z) by (intros nd H; apply (ts_col _ _ _ _ _ T2 nd H)).
    assert (R1 : forall nd, In nd l1 -> (top nd < start + m)%nat /\ (bottom nd < start + m)%nat).
    { intros nd H. destruct (ts_range _ _ _ _ _ T1 nd H) as (a & b & c & _). rewrite L1 in c. lia. }
    assert (R2 : forall nd, In nd l2 -> (start + m <= top nd)%nat /\ (start + m <= bottom nd)%nat).
    { intros nd H. destruct (ts_range _ _ _ _ _ T2 nd H) as (a & b & c & _). lia. }
    assert (I0 : in_col col (root :: l1 ++ l2) = [root]).
    { unfold in_col. cbn [filter]. change (column root) with col. rewrite Z.eqb_refl. f_equal. fold (in_col col (l1 ++ l2)). rewrite in_col_app, !in_col_none; auto.
      - intros nd H. specialize (C2' nd H). lia.
      - intros nd H. specialize (C1' nd H). lia. }
    rewrite I0. cbn [fold_right]. set (w1 := wt s root w).
    rewrite (colrun_skip (root :: l1 ++ l2) (l1 ++ l2) D (col + 1) w1).
    2:{ intros c Hc. unfold in_col at 1. cbn [filter]. change (column root) with col. destruct (Z.eqb_spec col c); [lia | reflexivity]. }
    assert (Sroot : s (node_id root) = INR m / INR n).
    { rewrite (Hs root) by (left; auto). unfold root, plain_node. cbn [alpha beta]. rewrite L1, L2. replace (m - 1 + 1)%nat with m by lia. f_equal. rewrite <- plus_INR. f_equal. lia. }
    assert (Hm : (1 <= m < n)%nat) by lia.
    assert (Nm : INR m <> 0) by (apply not_0_INR; lia). assert (Nn : INR n <> 0) by (apply not_0_INR; lia). assert (Nnm : INR (n - m) <> 0) by (apply not_0_INR; lia).
    assert (W1t : w1 (start + (m - 1))%nat = INR m / INR n * w (start + length indices)%nat).
    { unfold w1, wt. rewrite Sroot. unfold root, plain_node. cbn [top bottom]. rewrite upd_neq by lia. replace (start + (m - 1))%nat with (start + m - 1)%nat by lia. rewrite upd_eq.
      f_equal. f_equal. lia. }
    assert (W1b : w1 (start + m + (n - 1 - m))%nat = INR (n - m) / INR n * w (start + length indices)%nat).
    { unfold w1, wt. rewrite Sroot. unfold root, plain_node. cbn [top bottom]. replace (start + m + (n - 1 - m))%nat with (start + n - 1)%nat by lia. rewrite upd_eq.
      replace (start + length indices)%nat with (start + n - 1)%nat by lia. rewrite minus_INR by lia. field. auto. }
    destruct (Nat.lt_ge_cases r (start + m)) as [Hlo | Hhi].
    + rewrite (colrun_loc (fun q => (q < start + m)%nat) (l1 ++ l2) l1 D (col + 1) w1 w1); auto.
      * rewrite (IH _ _ _ _ _ D w1 E1); try lia.
        -- rewrite L1, W1t. replace (m - 1 + 1)%nat with m by lia. field. auto.
        -- rewrite L1. replace (m - 1 + 1)%nat with m by lia. assert (Nat.log2_up m <= Nat.log2_up (n - m))%nat by (apply log2_up_mono; lia). fold m in Hlog. lia.
        -- intros nd H. apply Hs. right. apply in_or_app. left. auto.
      * intro c. exists [], (in_col c l2). cbn [List.app]. split; [apply in_col_app |]. intros nd H. apply in_col_In in H. destruct (R2 nd (proj1 H)). lia.
    + rewrite (colrun_loc (fun q => (start + m <= q)%nat) (l1 ++ l2) l2 D (col + 1) w1 w1); auto.
      * rewrite (IH _ _ _ _ _ D w1 E2); try lia.
        -- rewrite L2, W1b. replace (n - 1 - m + 1)%nat with (n - m)%nat by lia. field. auto.
        -- rewrite L2. replace (n - 1 - m + 1)%nat with (n - m)%nat by lia. fold m in Hlog. lia.
        -- intros nd H. apply Hs. right. apply in_or_app. right. auto.
      * intro c. exists (in_col c l1), []. rewrite !app_nil_r. split; [apply in_col_app |]. intros nd H. apply in_col_In in H. destruct (R1 nd (proj1 H)). lia.
Qed.
Lemma wt_moved : forall (f : node -> Z) L w, fold_right (wt s) w (map (fun nd => with_column nd (f nd)) L) = fold_right (wt s) w L.
Proof. intros f. induction L as [| nd L IH]; intro w; [reflexivity |]. cbn [map fold_right]. rewrite IH. reflexivity. Qed.
Lemma fold_columns : forall (F : nat -> list node) D w, fold_right (wt s) w (concat (map F (seq 0 D))) = fold_left (fun w k => fold_right (wt s) w (F (D - 1 - k)%nat)) (seq 0 D) w.
Proof.
  intros F D w. 
  assert (E : forall ls w, fold_right (wt s) w (concat ls) = fold_left (fun w l => fold_right (wt s) w l) (rev ls) w).
  { clear. induction ls as [| l ls IH]; intro w; [reflexivity |]. cbn [concat rev]. rewrite fold_right_app, IH, fold_left_app. reflexivity. }
  rewrite E, <- rev_seq_map.
  assert (G : forall ks w, fold_left (fun w l => fold_right (wt s) w l) (map (fun c => F (D - 1 - c)%nat) ks) w = fold_left (fun w k => fold_right (wt s) w (F (D - 1 - k)%nat)) ks w).
  { induction ks as [| k ks IH]; intro w'; [reflexivity |]. cbn [map fold_left]. apply IH. }
  apply G.
Qed.
Lemma colrun_fold : forall l D j w, colrun l (Z.of_nat j) D w = fold_left (fun w k => fold_right (wt s) w (in_col (Z.of_nat k) l)) (seq j D) w.
Proof.
  intros l. induction D; intros j w; [reflexivity |]. cbn [colrun seq fold_left]. replace (Z.of_nat j + 1)%Z with (Z.of_nat (S j)) by lia. apply IHD.
Qed.
End split.
Lemma balanced_in_order : forall s n r st m, (2 <= n)%nat -> (n <= r)%nat -> tree n r true st = Some m ->
  (forall nd, In nd (nodes m) -> s (node_id nd) = INR (beta nd) / (INR (alpha nd) + INR (beta nd))) ->
  forall q, (q < n)%nat -> fold_right (wt s) (unit_at (n - 1)) (in_order m) q = / INR n.
Proof.
  intros s n r st m Hn Hr E Hs q Hq. unfold tree in E.
  destruct (tree_rec_spec n (seq 0 (n - 1)) r 0 0%Z) as (l & El & [I T R Cc D O F]); [rewrite seq_length; lia |].
  rewrite seq_length in *. replace (n - 1 + 1)%nat with n in * by lia. rewrite El in E. cbn [obind] in E.
  assert (Hpos : (0 < Nat.log2_up n)%nat) by (apply Nat.log2_up_pos; lia).
  destruct (inverted_mesh l st (Nat.log2_up n) r) as (m' & Em & _ & _ & Enodes & _ & _ & Enc).
  - intro Hl. subst l. destruct (F 0%Z ltac:(lia)) as (nd & [] & _).
  - eapply Permutation_NoDup; [apply Permutation_sym, I | apply seq_NoDup].
  - intros nd H. apply (R nd H).
  - intros nd H. specialize (Cc nd H). lia.
  - destruct (F (Z.of_nat (Nat.log2_up n) - 1)%Z ltac:(lia)) as (nd & H1 & H2). eauto.
  - assert (m' = m) by congruence. subst m'. unfold in_order. rewrite Enc, Nat2Z.id. set (N := Nat.log2_up n) in *.
    rewrite fold_columns.
    assert (G : forall ks w, (forall k, In k ks -> (k < N)%nat) ->
      fold_left (fun w k => fold_right (wt s) w (filter (fun nd => Z.eqb (column nd) (Z.of_nat (N - 1 - k))) (nodes m))) ks w = fold_left (fun w k => fold_right (wt s) w (in_col (Z.of_nat k) l)) ks w).
    { induction ks as [| k ks IH]; intros w Hk; [reflexivity |]. cbn [fold_left]. rewrite IH by (intros; apply Hk; right; auto). f_equal.
      change (filter (fun nd => Z.eqb (column nd) (Z.of_nat (N - 1 - k))) (nodes m)) with (in_col (Z.of_nat (N - 1 - k)) (nodes m)).
      specialize (Hk k (or_introl eq_refl)).
      rewrite Enodes, (in_col_shift _ (fun c => Z.of_nat N - 1 - c)%Z) by (intros; lia). rewrite wt_moved. f_equal. f_equal. lia. }
    rewrite G by (intros k Hk; apply in_seq in Hk; lia). rewrite <- colrun_fold.
    rewrite (tree_spread s n (seq 0 (n - 1)) r 0 0 l N _ El); rewrite ?seq_length; replace (n - 1 + 1)%nat with n by lia; try lia.
    + unfold unit_at. rewrite Nat.add_0_l, Nat.eqb_refl. unfold Rdiv. ring.
    + intros nd Hnd. pose proof (Hs (with_column nd (Z.of_nat N - 1 - column nd)%Z)) as K. cbn [with_column node_id alpha beta] in K. apply K.
      rewrite Enodes. apply in_map_iff. eauto.
Qed.
Lemma balanced_counts : forall fuel indices rails start col l, tree_rec fuel indices rails start col = Some l -> forall nd, In nd l -> (0 < alpha nd)%nat /\ (0 < beta nd)%nat.
Proof.
  induction fuel as [| fuel IH]; intros indices rails start col l E nd Hnd; [discriminate |]. cbn [tree_rec] in E.
  destruct (Nat.eqb _ 1); [assert (l = []) by congruence; subst; destruct Hnd |].
  match type of E with obind ?X _ = _ => destruct X as [l1 |] eqn:E1; [| discriminate] end. cbn [obind] in E.
  match type of E with obind ?X _ = _ => destruct X as [l2 |] eqn:E2; [| discriminate] end. cbn [obind] in E.
  match type of E with Some ?X = _ => assert (El : X = l) by congruence end. subst l. clear E. destruct Hnd as [<- | Hnd]; [unfold plain_node; cbn [alpha beta]; lia |].
  apply in_app_or in Hnd. destruct Hnd; eauto.
Qed.
Lemma tree_counts : forall n r st m nd, tree n r true st = Some m -> In nd (nodes m) -> (0 < alpha nd)%nat /\ (0 < beta nd)%nat.
Proof.
  intros n r st m nd E Hnd. unfold tree in E. destruct (tree_rec n (seq 0 (n - 1)) r 0 0) as [l |] eqn:El; [| discriminate]. cbn [obind] in E.
  destruct (mk_mesh l st) as [m0 |] eqn:Em; [| discriminate]. cbn [obind] in E. assert (Hm : invert_columns m0 = m) by congruence. subst m.
  unfold invert_columns in Hnd. cbn [nodes] in Hnd. apply in_map_iff in Hnd. destruct Hnd as (x & <- & Hx). cbn [with_column alpha beta].
  unfold mk_mesh in Em. assert (Hn : nodes m0 = renumber l \/ True) by auto.
  assert (Nx : exists y, In y l /\ alpha x = alpha y /\ beta x = beta y).
  { destruct l as [| a l']; [discriminate |]. assert (Hnm : nodes m0 = renumber (a :: l')) by (injection Em as <-; reflexivity). rewrite Hnm in Hx.
    unfold renumber in Hx. destruct (Nat.eqb _ _); [| eauto].
    apply in_map_iff in Hx. destruct Hx as ([i y] & <- & Hy). exists y. split; [| destruct y; auto]. eapply in_combine_r || eapply in_combine_l; eauto. }
  destruct Nx as (y & Hy & -> & ->). eapply balanced_counts; eauto.
Qed.
Lemma balanced_expected : forall n rails st Q avg (b a : nat -> R) p r, (2 <= n)%nat -> (n <= rails)%nat -> beta_draw Q avg -> (r < n)%nat ->
  exists m, tree n rails true st = Some m /\
    ((forall nd, In nd (nodes m) -> b (node_id nd) = INR (beta nd) /\ a (node_id nd) = INR (alpha nd)) ->
     expect avg (n - 1) (fun u => entry_power (matrix m false (with_thetas (fun k => transmissivity_to_phase (Q (b k) (a k) (u k)) None) p) (n - 1)%nat r)) = / INR n).
Proof.
  intros n rails st Q avg b a p r Hn Hr HQ Hrn. destruct (tree_balanced n rails st Hn Hr) as (m & E & _ & _ & Nl & _). exists m. split; auto. intro HB.
  pose proof (plain_progable n rails true st m Hn Hr E) as PG. rewrite (expected_row n st m Q avg b a p r Hn PG HQ).
  - apply (balanced_in_order _ n rails st m); auto. intros nd Hnd. destruct (HB nd Hnd) as [-> ->]. reflexivity.
  - intros k Hk. destruct Nl as (_ & N2 & _). assert (K : In k (map node_id (nodes m))) by (eapply Permutation_in; [apply Permutation_sym, N2 | apply in_seq; lia]).
    apply in_map_iff in K. destruct K as (nd & <- & Hnd). destruct (HB nd Hnd) as [-> ->]. destruct (tree_counts n rails st m nd E Hnd). split; apply lt_0_INR; auto.
Qed.

(** ** What construction really draws: the i-th draw uses the counts of the i-th node of the LIST, but is used by the node numbered i. *)
Lemma balanced5 : forall st Q avg p, beta_draw Q avg -> exists m, tree 5 5 true st = Some m /\
  expect avg 4 (fun u => entry_power (matrix m false (with_thetas (rand_theta Q m u) p) 4%nat 1%nat)) = 3 / 10.
Proof.
  intros st Q avg p HQ. destruct (tree_balanced 5 5 st ltac:(lia) ltac:(lia)) as (m & E & _). exists m. split; [exact E |].
  assert (PG : progable 5 st m) by (apply (plain_progable 5 5 true); auto; lia).
  rewrite (functional_extensionality _ (fun u => entry_power (matrix m false (with_thetas (fun k => transmissivity_to_phase (Q ((fun k => INR (nth k (map beta (nodes m)) 0%nat)) k) ((fun k => INR (nth k (map alpha (nodes m)) 0%nat)) k) (u k)) None) p) 4%nat 1%nat))).
  2:{ intro u. rewrite (rand_theta_plain 5 st m Q u p PG). reflexivity. }
  assert (En : map (fun nd => (node_id nd, top nd, bottom nd, (beta nd, alpha nd), column nd)) (nodes m) =
    [(1, 1, 4, (2, 3), 2%Z); (0, 0, 1, (1, 1), 1%Z); (2, 2, 4, (1, 2), 1%Z); (3, 3, 4, (1, 1), 0%Z)]%nat /\ num_columns m = 3%Z).
  { destruct st; vm_compute in E; injection E as <-; vm_compute; auto. }
  destruct En as [En Ec].
  assert (Eb : map beta (nodes m) = [2; 1; 1; 1]%nat) by (apply (f_equal (map (fun x => let '(_, (b, _), _) := x in b))) in En; rewrite map_map in En; exact En).
  assert (Ea : map alpha (nodes m) = [3; 1; 2; 1]%nat) by (apply (f_equal (map (fun x => let '(_, (_, a), _) := x in a))) in En; rewrite map_map in En; exact En).
  change 4%nat with (5 - 1)%nat.
  rewrite (expected_row 5 st m Q avg _ _ p 1%nat ltac:(lia) PG HQ).
  - rewrite Eb, Ea.
    destruct (nodes m) as [| x1 [| x2 [| x3 [| x4 [| ? ?]]]]] eqn:Em; try discriminate. cbn [map] in En.
    injection En as A1 A2 A3 A4 A5 A6 B1 B2 B3 B4 B5 B6 D1 D2 D3 D4 D5 D6 F1 F2 F3 F4 F5 F6.
    unfold in_order. rewrite Ec, Em. replace (Z.to_nat 3) with 3%nat by reflexivity. cbn [seq map filter concat].
    rewrite A6, B6, D6, F6. cbn [Z.of_nat Z.eqb Pos.of_succ_nat Pos.succ Pos.eqb List.app fold_right].
    unfold wt, upd, unit_at. rewrite A1, A2, A3, B1, B2, B3, D1, D2, D3, F1, F2, F3. cbn [Nat.eqb Nat.sub nth INR]. field.
  - intros k Hk. cbv beta. rewrite Eb, Ea. do 4 (destruct k as [| k]; [cbn [nth INR]; lra |]). lia.
Qed.
