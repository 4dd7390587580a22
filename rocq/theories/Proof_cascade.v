(** cascade / triangular / tree_cascade (C13, C15). *)
From Coq Require Import Reals Lra Lia Psatz List ZArith Permutation Bool FunctionalExtensionality.
From Verif Require Import Cx Arr Spec_circuit Model_coupling Model_forward Model_vector Spec_mesh Spec_tree
  Proof_node Proof_mesh Proof_forward Proof_forward2 Proof_forward3 Proof_forward4 Proof_null Proof_null2 Proof_tree
  Proof_vector Proof_order Proof_linalg.
Import ListNotations.
Local Open Scope nat_scope.

Definition shift (k : nat) (off : Z) (nd : node) : node := with_column (with_id nd (node_id nd + k)) (column nd + off)%Z.

Lemma in_col_map_shift : forall k off c l, nodes_in_column (map (shift k off) l) c = map (shift k off) (nodes_in_column l (c - off)%Z).
Proof.
  intros k off c l. unfold nodes_in_column. induction l as [| a l IH]; auto. cbn [map filter]. rewrite IH.
  change (column (shift k off a)) with (column a + off)%Z.
  destruct (Z.eqb_spec (column a + off)%Z c); destruct (Z.eqb_spec (column a) (c - off)%Z); cbn [map]; auto; lia.
Qed.
Lemma good_shift : forall k off l, good l -> good (map (shift k off) l).
Proof.
  intros k off l. induction l as [| a l IH]; intros H; [constructor |]. apply good_cons in H. destruct H as [H1 H2].
  cbn [map]. apply good_cons. split; auto. intros b Hb. apply in_map_iff in Hb. destruct Hb as (x & <- & Hx).
  destruct (H1 x Hx) as [H | H]; [left; cbn; lia | right; exact H].
Qed.

Section Cascade.
Variables (eps : R) (w0 : mat) (n : nat) (balanced : bool) (s : phase_style).
Hypothesis Heps : (0 <= eps)%R.
Hypothesis Hs : tb s.

Definition parm (st : cstate) : params := mkParams (cth st) (cph st) (fun _ => 0%R).

Record cinv (i : nat) (st : cstate) (L : list node) : Prop := {
  ci_le : i <= n;
  ci_run : forall j, (fun r => cw st r j) = run (node_ops s (parm st) L) (fun r => w0 r j);
  ci_agg : forall c, nodes_in_column (concat (map nodes (csub st))) c = nodes_in_column L c;
  ci_perm : Permutation (concat (map nodes (csub st))) L;
  ci_ids : Permutation (map node_id L) (seq 0 (cnn st));
  ci_good : good L;
  ci_nodes : forall nd, In nd L -> (top nd < bottom nd < n) /\ n_of nd = n /\ bs_error nd = (0, 0)%R /\ loss nd = (0, 0)%R /\ (0 <= column nd)%Z;
  ci_null : forall c, i <= c < n -> (Rsum c (fun r => Cn2 (cw st r c)) <= INR c * eps)%R;
  ci_gam : length (cgam st) = n - i /\ forall c, i <= c < n -> nth (c - i) (cgam st) 0%R = (- Carg (cw st c c))%R;
  ci_cnt : 2 * cnn st + i * (i - 1) = n * (n - 1);
  ci_bal : balanced = true -> (0 <= cncol st)%Z /\ (forall nd, In nd L -> (column nd < cncol st)%Z) /\
     (forall c, (0 <= c < cncol st)%Z -> exists nd, In nd L /\ column nd = c);
  ci_tri : balanced = false ->
     (forall nd, In nd L -> exists j k, j < n - i /\ k < n - 1 - j /\ top nd = k /\ bottom nd = k + 1 /\ column nd = Z.of_nat (k + 2 * j)) /\
     (forall j k, j < n - i -> k < n - 1 - j -> exists nd, In nd L /\ top nd = k /\ column nd = Z.of_nat (k + 2 * j)) }.

Lemma cinv_init : cinv n (mkCS w0 (fun _ => 0%R) (fun _ => 0%R) [] 0 0 []) [].
Proof.
  constructor; cbn; auto; try (intros; lia); try (intros ? []).
  - constructor.
  - split; [lia | intros; lia].
  - intros _. split; [lia |]. split; [intros ? [] | intros; lia].
  - intros _. split; [intros ? [] | intros; lia].
Qed.

Lemma cascade_step_spec : forall i st L, 1 <= i -> cinv (S i) st L ->
  exists st' L', cascade_step eps n balanced s 0 0 i st = Some st' /\ cinv i st' L' /\
    (balanced = true -> cncol st' = (cncol st + Z.of_nat (Nat.log2_up (i + 1)))%Z).
Proof.
  intros i st L Hi [Hle Hrun Hagg Hperm Hids Hgood Hnodes Hnull [Hgl Hgam] Hcnt Hbal Htri].
  destruct (tree_progable (i + 1) n balanced s ltac:(lia) ltac:(lia)) as (t & m & Et & Em & Hp & Hr & _ & _ & Hnc & Hch & Hnof).
  destruct (program_vector_spec eps s (i + 1) m (cw st) i Heps Hs Hp) as (p & w & Ew & Hw & Hnl & Hg).
  replace (i + 1 - 1) with i in * by lia.
  pose proof (pg_null _ _ _ Hp) as (Hn1 & Hn2 & Hn3 & Hn4 & Hn5). replace (i + 1 - 1) with i in * by lia.
  set (off := if balanced then cncol st else (2 * (Z.of_nat n - 1 - Z.of_nat i))%Z).
  set (Ln := map (shift (cnn st) off) (in_order m)).
  assert (Hcolr : forall nd, In nd (nodes m) -> (0 <= column nd < Z.of_nat (Z.to_nat (num_columns m)))%Z).
  { intros nd Hin. pose proof (pg_col _ _ _ Hp nd Hin). lia. }
  assert (HP : Permutation (in_order m) (nodes m)) by (apply in_order_perm; auto).
  assert (Hidlt : forall nd, In nd (nodes m) -> node_id nd < i).
  { intros nd Hin. assert (Hx : In (node_id nd) (seq 0 i)) by (eapply Permutation_in; [exact Hn2 | apply in_map; auto]). apply in_seq in Hx. lia. }
  assert (HL : forall nd, In nd L -> node_id nd < cnn st).
  { intros nd Hin. assert (Hx : In (node_id nd) (seq 0 (cnn st))) by (eapply Permutation_in; [exact Hids | apply in_map; auto]). apply in_seq in Hx. lia. }
  set (st' := mkCS w
    (fun k => if Nat.ltb k (cnn st) then cth st k else thetas p (k - cnn st))
    (fun k => if Nat.ltb k (cnn st) then cph st k else phis p (k - cnn st))
    (gammas p i :: cgam st) (cncol st + num_columns m) (cnn st + length (nodes m))
    (csub st ++ [offset_column (offset m (cnn st)) off])).
  exists st', (L ++ Ln).
  assert (Hops1 : node_ops s (parm st') L = node_ops s (parm st) L).
  { unfold node_ops. apply map_ext_in. intros nd Hin. unfold parm, st'; cbn [thetas phis cth cph].
    assert (E : Nat.ltb (node_id nd) (cnn st) = true) by (apply Nat.ltb_lt; auto). rewrite E. reflexivity. }
  assert (Hops2 : node_ops s (parm st') Ln = node_ops s p (in_order m)).
  { unfold node_ops, Ln. rewrite map_map. apply map_ext_in. intros nd Hin. unfold parm, st'; cbn [thetas phis cth cph shift with_column with_id node_id top bottom].
    assert (E : Nat.ltb (node_id nd + cnn st) (cnn st) = false) by (apply Nat.ltb_ge; lia). rewrite E.
    replace (node_id nd + cnn st - cnn st) with (node_id nd) by lia. reflexivity. }
  assert (HopsIn : forall o, In o (node_ops s p (in_order m)) -> let '(_, t, b) := o in t < b /\ b <= i).
  { intros o Ho. unfold node_ops in Ho. apply in_map_iff in Ho. destruct Ho as (nd & <- & Hin). apply in_order_In in Hin. specialize (Hn4 nd Hin). lia. }
  assert (Hwcc : forall r c, i < r -> w r c = cw st r c).
  { intros r c Hr'. change (w r c) with ((fun x => w x c) r). rewrite Hw. rewrite run_out; auto.
    intros o Ho. specialize (HopsIn o Ho). destruct o as [[q a] b]. lia. }
  assert (Hnodes' : nodes (offset_column (offset m (cnn st)) off) = map (shift (cnn st) off) (nodes m)).
  { cbn [offset_column offset nodes]. rewrite map_map. reflexivity. }
  assert (Hcncol : (0 <= num_columns m)%Z) by (destruct balanced; lia).
  assert (Hnew : forall b, In b Ln -> exists nd, In nd (nodes m) /\ b = shift (cnn st) off nd).
  { intros b Hb. unfold Ln in Hb. apply in_map_iff in Hb. destruct Hb as (nd & <- & Hin). apply in_order_In in Hin. eauto. }
  assert (Hnew' : forall nd, In nd (nodes m) -> In (shift (cnn st) off nd) Ln).
  { intros nd Hin. unfold Ln. apply in_map. eapply Permutation_in; [apply Permutation_sym, HP | auto]. }
  split; [| split].
  - unfold cascade_step, vector_unit. rewrite Et. cbn [obind]. rewrite Em. cbn [obind]. rewrite Ew. cbn [obind fst snd]. reflexivity.
  - constructor.
    + lia.
    + intro j. unfold node_ops. rewrite map_app, run_app. fold (node_ops s (parm st') L). fold (node_ops s (parm st') Ln).
      rewrite Hops1, Hops2, <- Hrun, <- Hw. reflexivity.
    + intro c. unfold st'; cbn [csub]. rewrite map_app, concat_app. cbn [map concat]. rewrite app_nil_r, Hnodes'.
      change (nodes_in_column ?x c) with (in_col c x). rewrite !in_col_app. unfold in_col. f_equal; [apply Hagg |].
      change (nodes_in_column (map (shift (cnn st) off) (nodes m)) c = nodes_in_column Ln c). unfold Ln. rewrite !in_col_map_shift. f_equal.
      symmetry. apply filter_concat_col. auto.
    + unfold st'; cbn [csub]. rewrite map_app, concat_app. cbn [map concat]. rewrite app_nil_r, Hnodes'.
      apply Permutation_app; auto. unfold Ln. apply Permutation_map, Permutation_sym, HP.
    + unfold st'; cbn [cnn]. rewrite map_app, seq_app. apply Permutation_app; auto. unfold Ln. rewrite map_map. cbn [shift with_column with_id node_id].
      rewrite Hn1. cbn [plus].
      assert (E : seq (cnn st) i = map (fun x => x + cnn st) (seq 0 i)).
      { clear. generalize (cnn st). induction i as [| i IH]; intros k; auto. rewrite !seq_S, map_app, <- IH. cbn. f_equal. f_equal. lia. }
      rewrite E. rewrite <- (map_map node_id (fun x => x + cnn st)). apply Permutation_map.
      eapply perm_trans; [apply Permutation_map, HP | exact Hn2].
    + apply good_app. split; [auto |]. split.
      * unfold Ln. apply good_shift. apply good_in_order. apply (pg_wf _ _ _ Hp).
      * intros a b Ha Hb. destruct (Hnew b Hb) as (nd & Hin & ->). destruct balanced eqn:Eb.
        -- left. destruct (Hbal eq_refl) as (_ & Hc & _). specialize (Hc a Ha). cbn. unfold off. specialize (Hcolr nd Hin). lia.
        -- destruct (Htri eq_refl) as (Hc & _). destruct (Hc a Ha) as (j & k & Hj & Hk & Et' & Eb' & Ec).
           destruct (Hch eq_refl nd Hin) as (E1 & E2 & E3). unfold disj. cbn [shift with_column with_id top bottom column].
           unfold off. rewrite Et', Eb', Ec, E1, E2, E3. lia.
    + intros nd Hin. apply in_app_or in Hin. destruct Hin as [Hin | Hin]; auto.
      destruct (Hnew nd Hin) as (x & Hx & ->). cbn [shift with_column with_id top bottom column n_of bs_error loss].
      specialize (Hn4 x Hx). destruct (pg_err _ _ _ Hp x Hx) as [E1 E2]. specialize (Hcolr x Hx).
      split; [lia |]. split.
      { apply Hnof; auto. }
      split; [auto |]. split; [auto |]. unfold off. destruct balanced eqn:Eb; [destruct (Hbal eq_refl); lia | lia].
    + intros c Hc. unfold st'; cbn [cw]. destruct (Nat.eq_dec c i) as [-> | Hci].
      * apply Rle_trans with (Rsum i (fun _ => eps)); [apply Rsum_le; auto |]. rewrite Rsum_const. apply Rle_refl.
      * change (Rsum c (fun r => Cn2 (w r c))) with (power c (fun r => w r c)). rewrite Hw.
        rewrite run_power.
        -- apply (Hnull c). lia.
        -- apply node_ops_ok. intros nd Hin. apply in_order_In in Hin. specialize (Hn4 nd Hin). lia.
        -- apply node_ops_unit.
    + unfold st'; cbn [cgam cw]. split; [cbn [length]; lia |]. intros c Hc. destruct (Nat.eq_dec c i) as [-> | Hci].
      * rewrite Nat.sub_diag. cbn [nth]. rewrite Hg, Nat.eqb_refl. reflexivity.
      * replace (c - i) with (S (c - S i)) by lia. cbn [nth]. rewrite Hwcc by lia. apply Hgam. lia.
    + unfold st'; cbn [cnn]. rewrite Hn1. nia.
    + intro Eb. destruct (Hbal Eb) as (B1 & B2 & B3). unfold st'; cbn [cncol]. split; [lia |]. split.
      * intros nd Hin. apply in_app_or in Hin. destruct Hin as [Hin | Hin]; [specialize (B2 nd Hin); lia |].
        destruct (Hnew nd Hin) as (x & Hx & ->). cbn. unfold off. rewrite Eb. pose proof (pg_col _ _ _ Hp x Hx). lia.
      * intros c Hc. destruct (Z_lt_ge_dec c (cncol st)) as [Hlt | Hge].
        -- destruct (B3 c ltac:(lia)) as (nd & H1 & H2). exists nd. split; auto. apply in_or_app; auto.
        -- destruct (proj2 (proj2 (proj2 (pg_wf _ _ _ Hp))) (c - cncol st)%Z ltac:(lia)) as (nd & H1 & H2).
           exists (shift (cnn st) off nd). split; [apply in_or_app; right; auto |]. cbn. unfold off. rewrite Eb. lia.
    + intro Eb. destruct (Htri Eb) as (T1 & T2). split.
      * intros nd Hin. apply in_app_or in Hin. destruct Hin as [Hin | Hin].
        -- destruct (T1 nd Hin) as (j & k & H1 & H2 & H3). exists j, k. repeat split; try tauto; lia.
        -- destruct (Hnew nd Hin) as (x & Hx & ->). exists (n - 1 - i), (node_id x).
           destruct (Hch Eb x Hx) as (E1 & E2 & E3). specialize (Hidlt x Hx).
           cbn [shift with_column with_id top bottom column]. unfold off. rewrite Eb, E1, E2, E3. repeat split; lia.
      * intros j k Hj Hk. destruct (Nat.eq_dec j (n - 1 - i)) as [-> | Hne].
        -- assert (Hx : In k (map node_id (nodes m))).
           { eapply Permutation_in; [apply Permutation_sym; exact Hn2 | apply in_seq; lia]. }
           apply in_map_iff in Hx. destruct Hx as (x & Ex & Hx). destruct (Hch Eb x Hx) as (E1 & E2 & E3).
           exists (shift (cnn st) off x). split; [apply in_or_app; right; auto |].
           cbn [shift with_column with_id top bottom column]. unfold off. rewrite Eb, E1, E3, Ex. split; lia.
        -- destruct (T2 j k ltac:(lia) Hk) as (nd & H1 & H2). exists nd. split; [apply in_or_app; auto | auto].
  - intro Eb. unfold st'; cbn [cncol]. rewrite Hnc, Eb. reflexivity.
Qed.
End Cascade.
