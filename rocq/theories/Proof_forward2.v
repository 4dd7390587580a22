(** JAX path, node matrices, explicit propagation, error attribution. *)
From Coq Require Import Reals Lra Lia Psatz List ZArith Permutation Bool FunctionalExtensionality.
From Verif Require Import Cx Arr Spec_circuit Model_coupling Model_forward Spec_mesh Proof_node Proof_mesh Proof_forward.
Import ListNotations.
Local Open Scope R_scope.

(** ** JAX scatter *)
Definition any_order (order : list (nat * C) -> list (nat * C)) : Prop := forall l, Permutation (order l) l.

Lemma assign_any_order : forall order l (v : vec) j x, any_order order ->
  In j (map fst l) -> (forall y, In (j, y) l -> y = x) -> assign v (order l) j = x.
Proof.
  intros order l v j x Ho Hin Hall. apply assign_consistent.
  - eapply Permutation_in; [apply Permutation_map, Permutation_sym, Ho | auto].
  - intros y Hy. apply Hall. eapply Permutation_in; [apply Ho | auto].
Qed.
Lemma assign_any_order_notin : forall order l (v : vec) j, any_order order ->
  ~ In j (map fst l) -> assign v (order l) j = v j.
Proof.
  intros order l v j Ho Hin. apply assign_notin. intro H; apply Hin.
  eapply Permutation_in; [apply Permutation_map, Ho | auto].
Qed.

Lemma nodup_top_unique : forall idx t b k b' k', NoDup (rails idx) ->
  In (t, b, k) idx -> In (t, b', k') idx -> b = b' /\ k = k'.
Proof.
  induction idx as [| [[t0 b0] k0] idx IH]; intros t b k b' k' Hnd H1 H2; [destruct H1 |].
  destruct (rails_nodup_cons _ _ _ _ Hnd) as (Htb & Ht & Hb & Hnd').
  destruct H1 as [E1 | H1]; destruct H2 as [E2 | H2].
  - inversion E1; inversion E2; subst; auto.
  - inversion E1; subst. exfalso; apply Ht. eapply rails_in_top; eauto.
  - inversion E2; subst. exfalso; apply Ht. eapply rails_in_top; eauto.
  - eapply IH; eauto.
Qed.
Lemma nodup_bot_unique : forall idx t b k t' k', NoDup (rails idx) ->
  In (t, b, k) idx -> In (t', b, k') idx -> t = t' /\ k = k'.
Proof.
  induction idx as [| [[t0 b0] k0] idx IH]; intros t b k t' k' Hnd H1 H2; [destruct H1 |].
  destruct (rails_nodup_cons _ _ _ _ Hnd) as (Htb & Ht & Hb & Hnd').
  destruct H1 as [E1 | H1]; destruct H2 as [E2 | H2].
  - inversion E1; inversion E2; subst; auto.
  - inversion E1; subst. exfalso; apply Hb. eapply rails_in_bot; eauto.
  - inversion E2; subst. exfalso; apply Hb. eapply rails_in_bot; eauto.
  - eapply IH; eauto.
Qed.
Lemma nodup_top_bot : forall idx t b k t' k', NoDup (rails idx) ->
  In (t, b, k) idx -> In (t', t, k') idx -> False.
Proof.
  induction idx as [| [[t0 b0] k0] idx IH]; intros t b k t' k' Hnd H1 H2; [destruct H1 |].
  destruct (rails_nodup_cons _ _ _ _ Hnd) as (Htb & Ht & Hb & Hnd').
  destruct H1 as [E1 | H1]; destruct H2 as [E2 | H2].
  - inversion E1; inversion E2; subst. apply Htb; congruence.
  - inversion E1; subst. apply Ht. eapply rails_in_bot; eassumption.
  - inversion E2; subst. apply Hb. eapply rails_in_top; eassumption.
  - exact (IH t b k t' k' Hnd' H1 H2).
Qed.

Lemma masked_true : forall q x y, (t11 (masked true q) * x + t21 (masked true q) * y)%C = qtop q x y /\
  (t12 (masked true q) * x + t22 (masked true q) * y)%C = qbot q x y.
Proof.
  intros. unfold masked, qtop, qbot; simpl. change (RtoC 1) with C1. split; ring.
Qed.
Lemma masked_false : forall q x, (t11 (masked false q) * x + t21 (masked false q) * x)%C = x /\
  (t12 (masked false q) * x + t22 (masked false q) * x)%C = x.
Proof.
  intros. unfold masked; simpl. change (RtoC 0) with C0. split; ring.
Qed.

Lemma jax_writes_in : forall el idx d k v j y,
  In (j, y) (jax_writes el (map (fun x => (x, true)) idx ++ repeat (d, d, 0%nat, false) k) v) ->
  (exists t b i, In (t, b, i) idx /\ j = t /\ y = qtop (el i) (v t) (v b)) \/
  (exists t b i, In (t, b, i) idx /\ j = b /\ y = qbot (el i) (v t) (v b)) \/
  (j = d /\ y = v d /\ (0 < k)%nat).
Proof.
  intros el idx d k v j y H. unfold jax_writes in H. apply in_app_or in H.
  destruct H as [H | H]; apply in_map_iff in H; destruct H as [[[[t b] i] mk] [E H]];
    apply in_app_or in H; destruct H as [H | H].
  - apply in_map_iff in H. destruct H as [[[t' b'] i'] [E' H]]. inversion E'; subst.
    inversion E; subst. left. exists j, b, i. repeat split; auto. apply masked_true.
  - assert (Hk : (0 < k)%nat) by (destruct k; [destruct H | lia]).
    apply repeat_spec in H. inversion H; subst. inversion E; subst. right; right. repeat split; auto.
    apply masked_false.
  - apply in_map_iff in H. destruct H as [[[t' b'] i'] [E' H]]. inversion E'; subst.
    inversion E; subst. right; left. exists t, j, i. repeat split; auto. apply masked_true.
  - assert (Hk : (0 < k)%nat) by (destruct k; [destruct H | lia]).
    apply repeat_spec in H. inversion H; subst. inversion E; subst. right; right. repeat split; auto.
    apply masked_false.
Qed.
Lemma jax_writes_fst : forall el l v, map fst (jax_writes el l v) =
  map (fun x => fst (fst (fst x))) l ++ map (fun x => snd (fst (fst x))) l.
Proof.
  intros. unfold jax_writes. rewrite map_app, !map_map.
  f_equal; apply map_ext; intros [[[t b] k] mk]; reflexivity.
Qed.

Lemma jax_column : forall order el idx d k v, any_order order -> NoDup (rails idx) ->
  ((0 < k)%nat -> ~ In d (rails idx)) ->
  parallel_transform_jax order el (map (fun x => (x, true)) idx ++ repeat (d, d, 0%nat, false) k) v
  = parallel_transform el idx v.
Proof.
  intros order el idx d k v Ho Hnd Hd. apply functional_extensionality; intro j.
  unfold parallel_transform_jax.
  assert (Hfst : forall j, In j (map fst (jax_writes el (map (fun x => (x, true)) idx ++ repeat (d, d, 0%nat, false) k) v))
     <-> In j (rails idx) \/ (j = d /\ (0 < k)%nat)).
  { intro r. rewrite jax_writes_fst, !map_app, !map_map. simpl. unfold rails. rewrite !in_app_iff.
    assert (Hr : forall (f : nat * nat * nat * bool -> nat), f (d, d, 0%nat, false) = d ->
              In r (map f (repeat (d, d, 0%nat, false) k)) <-> r = d /\ (0 < k)%nat).
    { intros f Hf. split.
      - intro H. assert (Hk : (0 < k)%nat) by (destruct k; [destruct H | lia]).
        apply in_map_iff in H. destruct H as [x [E H]]. apply repeat_spec in H; subst x. split; congruence.
      - intros [E Hk]. apply in_map_iff. exists (d, d, 0%nat, false). split; [congruence |].
        destruct k; [lia | left; auto]. }
    rewrite !Hr by auto. tauto. }
  destruct (in_dec Nat.eq_dec j (rails idx)) as [Hj | Hj].
  - destruct (rails_inv _ _ Hj) as (t & b & i & Hin & E).
    destruct E as [E | E]; subst j.
    + rewrite (pt_top el idx v t b i) by auto. apply assign_any_order; auto.
      * apply Hfst; auto.
      * intros y Hy. apply jax_writes_in in Hy.
        destruct Hy as [(t' & b' & i' & H1 & E1 & E2) | [(t' & b' & i' & H1 & E1 & E2) | (E1 & E2 & Hk)]].
        -- subst t'. destruct (nodup_top_unique idx t b i b' i' Hnd Hin H1); subst; auto.
        -- subst b'. exfalso; exact (nodup_top_bot idx t b i t' i' Hnd Hin H1).
        -- subst d. exfalso; apply Hd; auto.
    + rewrite (pt_bot el idx v t b i) by auto. apply assign_any_order; auto.
      * apply Hfst; auto.
      * intros y Hy. apply jax_writes_in in Hy.
        destruct Hy as [(t' & b' & i' & H1 & E1 & E2) | [(t' & b' & i' & H1 & E1 & E2) | (E1 & E2 & Hk)]].
        -- subst t'. exfalso; exact (nodup_top_bot idx b b' i' t i Hnd H1 Hin).
        -- subst b'. destruct (nodup_bot_unique idx t b i t' i' Hnd Hin H1); subst; auto.
        -- subst d. exfalso; apply Hd; auto.
  - rewrite pt_other by auto.
    destruct (Nat.eq_dec j d) as [E | E]; [destruct k as [| k'] eqn:Ek |].
    + apply assign_any_order_notin; auto. rewrite Hfst. intros [H | [_ H]]; [auto | lia].
    + apply assign_any_order; auto.
      * apply Hfst. right; split; [auto | lia].
      * intros y Hy. apply jax_writes_in in Hy.
        destruct Hy as [(t' & b' & i' & H1 & E1 & E2) | [(t' & b' & i' & H1 & E1 & E2) | (E1 & E2 & Hk)]].
        -- exfalso; apply Hj. rewrite E1. eapply rails_in_top; eauto.
        -- exfalso; apply Hj. rewrite E1. eapply rails_in_bot; eauto.
        -- subst; auto.
    + apply assign_any_order_notin; auto. rewrite Hfst. intros [H | [H _]]; auto.
Qed.

Lemma dummy_fill_spec : forall n idx r, In r (dummy_fill n idx) <-> (r < n)%nat /\ ~ In r (rails idx).
Proof.
  intros n idx r. unfold dummy_fill. rewrite filter_In, in_seq.
  assert (H : existsb (fun x : nat * nat * nat => let '(t, b, _) := x in (Nat.eqb r t || Nat.eqb r b)%bool) idx = true <-> In r (rails idx)).
  { rewrite existsb_exists. split.
    - intros [[[t b] k] [Hin E]]. apply orb_prop in E. destruct E as [E | E]; apply Nat.eqb_eq in E; subst;
        eauto using rails_in_top, rails_in_bot.
    - intro Hr. destruct (rails_inv _ _ Hr) as (t & b & k & Hin & E). exists (t, b, k). split; auto.
      apply orb_true_intro. destruct E; [left | right]; apply Nat.eqb_eq; auto. }
  split.
  - intros [H1 H2]. split; [lia |]. rewrite <- H. intro E. rewrite E in H2. discriminate.
  - intros [H1 H2]. split; [lia |]. destruct (existsb _ idx) eqn:E; auto. exfalso; apply H2, H; auto.
Qed.

Lemma rails_length : forall idx, length (rails idx) = (2 * length idx)%nat.
Proof. intros. unfold rails. rewrite app_length, !map_length. lia. Qed.

Lemma rails_lt : forall n nn idx, idx_ok n nn idx = true -> forall r, In r (rails idx) -> (r < n)%nat.
Proof.
  intros n nn idx H r Hr. unfold idx_ok in H. rewrite forallb_forall in H.
  destruct (rails_inv _ _ Hr) as (t & b & k & Hin & E). specialize (H _ Hin). simpl in H.
  apply andb_prop in H; destruct H as [H _]. apply andb_prop in H; destruct H as [H1 H2].
  apply Nat.ltb_lt in H1, H2. destruct E; subst; auto.
Qed.

Lemma pad_column_ok : forall order n nn idxs el v idx, any_order order ->
  (forall i, In i idxs -> idx_ok n nn i = true /\ NoDup (rails i)) -> In idx idxs ->
  parallel_transform_jax order el (pad_column n (fold_right Nat.max 0%nat (map (@length _) idxs)) idx) v
  = parallel_transform el idx v.
Proof.
  intros order n nn idxs el v idx Ho Hall Hin. unfold pad_column. apply jax_column; auto.
  - apply Hall; auto.
  - intros Hw Hd.
    set (w := fold_right Nat.max 0%nat (map (@length _) idxs)) in *.
    assert (Hmax : exists i, In i idxs /\ length i = w).
    { assert (HM : forall l : list (list (nat * nat * nat)), l <> [] ->
         exists i, In i l /\ length i = fold_right Nat.max 0%nat (map (@length _) l)).
      { induction l as [| a l IH]; intros Hne; [congruence |]. simpl.
        destruct l as [| a' l'].
        - exists a; split; [left; auto |]. simpl. lia.
        - destruct IH as [i [Hi El]]; [discriminate |].
          destruct (Nat.max_spec (length a) (fold_right Nat.max 0%nat (map (@length _) (a' :: l')))) as [[_ E] | [_ E]].
          + exists i; split; [right; auto |]. rewrite E; auto.
          + exists a; split; [left; auto |]. rewrite E; auto. }
      apply HM. intro E; subst; destruct Hin. }
    destruct Hmax as [im [Him Elen]].
    destruct (dummy_fill n idx) as [| d0 dl] eqn:Edf.
    + (* every rail used: the column already has maximal width *)
      assert (Hcov : incl (seq 0 n) (rails idx)).
      { intros r Hr. apply in_seq in Hr. destruct (in_dec Nat.eq_dec r (rails idx)); auto.
        exfalso. assert (Hx : In r (dummy_fill n idx)) by (apply dummy_fill_spec; split; [lia | auto]).
        rewrite Edf in Hx; destruct Hx. }
      pose proof (NoDup_incl_length (seq_NoDup n 0) Hcov) as H1.
      rewrite seq_length, rails_length in H1.
      destruct (Hall im Him) as [Hok Hnd].
      assert (H2 : incl (rails im) (seq 0 n)).
      { intros r Hr. apply in_seq. pose proof (rails_lt _ _ _ Hok r Hr). lia. }
      pose proof (NoDup_incl_length Hnd H2) as H3. rewrite seq_length, rails_length in H3. lia.
    + assert (Hx : In d0 (dummy_fill n idx)) by (rewrite Edf; left; auto).
      apply dummy_fill_spec in Hx. apply (proj2 Hx). exact Hd.
Qed.

Lemma jax_same : forall order m back p x, any_order order -> rails_disjoint (nodes m) ->
  matrix_fn_jax order m back p x = matrix_fn m back p x.
Proof.
  intros order m back p x Ho Hd. unfold matrix_fn_jax, matrix_fn.
  destruct (columns m) as [cols |] eqn:Hc; auto. fold (mesh_idxs m back cols).
  destruct (forallb _ _) eqn:Hok; auto.
  assert (HF : forall idxs v, (forall i, In i idxs -> In i (mesh_idxs m back cols)) ->
     fold_left (fun v idx => parallel_transform_jax order (mzis m back p) idx v)
       (map (pad_column (n_rails m) (fold_right Nat.max 0%nat (map (@length _) (mesh_idxs m back cols)))) idxs) v =
     fold_left (fun v idx => parallel_transform (mzis m back p) idx v) idxs v).
  { induction idxs as [| i idxs IH]; intros v Hin; [reflexivity |]. simpl.
    rewrite (pad_column_ok order (n_rails m) (length (bs_errors m)) (mesh_idxs m back cols)).
    - apply IH. intros; apply Hin; right; auto.
    - auto.
    - intros i' Hi'. split.
      + rewrite forallb_forall in Hok. apply Hok; auto.
      + pose proof (mesh_idxs_nodup m back cols Hd Hc) as HN. rewrite Forall_forall in HN. apply HN; auto.
    - apply Hin; left; auto. }
  unfold padded_idx. rewrite HF by auto. reflexivity.
Qed.

(** ** Node matrices *)
Lemma loss2insertion_exp : forall l, loss2insertion l = exp (ln 10 * l / 20).
Proof.
  intros. unfold loss2insertion. replace (ln 10 * l / 10) with (ln 10 * l / 20 + ln 10 * l / 20) by field.
  rewrite exp_plus. apply sqrt_square. left; apply exp_pos.
Qed.

Definition mat2_of_quad (q : quad) : mat2 := mk2 (t11 q) (t21 q) (t12 q) (t22 q).

Lemma Cexp_split : forall a t, Cexp (mkC a t) = (RtoC (exp a) * cis t)%C.
Proof. intros. unfold Cexp; simpl. apply Cscal_RtoC. Qed.

Lemma parallel_mzi_node : forall nd theta phi, snd (loss nd) = 0 ->
  mat2_of_quad (parallel_mzi TOP false theta phi (bs_error nd) (loss nd)) = mzi_node_matrix2 nd theta phi.
Proof.
  intros nd theta phi H. unfold mzi_node_matrix2, dc, sel, mul2, phase_matrix, mat2_of_quad, parallel_mzi, mzi_terms.
  cbn [b2R m11 m12 m21 m22 t11 t12 t21 t22].
  rewrite !H, !loss2insertion_exp.
  replace (ln 10 * 0 / 20) with 0 by field. rewrite exp_0, cis_0.
  replace (0 * (1 - 0)) with 0 by ring. replace (phi * (1 - 0)) with phi by ring.
  replace (0 * 0) with 0 by ring. replace (phi * 0) with 0 by ring.
  rewrite !Cexp_split, exp_0, cis_0.
  rewrite ?RtoC_opp, ?RtoC_mul, ?RtoC_1.
  f_equal; ring [Ci_sq].
Qed.

Lemma embed_app : forall n q t b v, ok n (q, t, b) ->
  veq n (app n (embed_2x2 (mat2_of_quad q) n t b) v) (apply_op (q, t, b) v).
Proof.
  intros n q t b v (Ht & Hb & Htb) i Hi. unfold app.
  assert (Eb : forall i j x y, Nat.eqb i x && Nat.eqb j y = true <-> i = x /\ j = y).
  { intros. rewrite andb_true_iff, !Nat.eqb_eq. tauto. }
  assert (Hval : forall j, embed_2x2 (mat2_of_quad q) n t b i j =
     if Nat.eqb i b then (if Nat.eqb j b then t22 q else if Nat.eqb j t then t12 q else C0)
     else if Nat.eqb i t then (if Nat.eqb j b then t21 q else if Nat.eqb j t then t11 q else C0)
     else delta i j).
  { intro j. unfold embed_2x2, upd2, mat2_of_quad; simpl.
    destruct (Nat.eqb_spec i b); destruct (Nat.eqb_spec j b); destruct (Nat.eqb_spec i t); destruct (Nat.eqb_spec j t);
      subst; simpl; try congruence; auto; unfold delta;
      match goal with |- context [Nat.eqb ?a ?b] => destruct (Nat.eqb_spec a b); subst; congruence end. }
  rewrite (Csum_ext n _ (fun j => (if Nat.eqb i b then (if Nat.eqb j b then t22 q else if Nat.eqb j t then t12 q else C0)
     else if Nat.eqb i t then (if Nat.eqb j b then t21 q else if Nat.eqb j t then t11 q else C0)
     else delta i j) * v j)%C) by (intros; rewrite Hval; auto).
  destruct (Nat.eqb_spec i b) as [E | E]; [subst i |].
  - rewrite apply_op_bot. rewrite (Csum_double n _ t b); auto.
    + rewrite !Nat.eqb_refl. destruct (Nat.eqb_spec t b); [congruence |]. unfold qbot. ring.
    + intros j _ H1 H2. destruct (Nat.eqb_spec j b); [congruence |]. destruct (Nat.eqb_spec j t); [congruence |]. ring.
  - destruct (Nat.eqb_spec i t) as [E' | E']; [subst i |].
    + rewrite apply_op_top by auto. rewrite (Csum_double n _ t b); auto.
      * rewrite !Nat.eqb_refl. destruct (Nat.eqb_spec t b); [congruence |]. unfold qtop. ring.
      * intros j _ H1 H2. destruct (Nat.eqb_spec j b); [congruence |]. destruct (Nat.eqb_spec j t); [congruence |]. ring.
    + rewrite apply_op_other by auto. apply Csum_delta_l; auto.
Qed.

Lemma app_veq : forall n M v w, veq n v w -> app n M v = app n M w.
Proof.
  intros. apply functional_extensionality; intro i. unfold app. apply Csum_ext. intros j Hj. rewrite H; auto.
Qed.

(** Node elements as they are looked up: [nd]'s own data are stored at index [node_id nd]. *)
Definition own_data (m : mesh) : Prop := forall nd, In nd (nodes m) ->
  err_at m (node_id nd) = bs_error nd /\ loss_at m (node_id nd) = loss nd.

(** Nodes in the order light visits them: column 0, column 1, ... each in list order. *)
Definition in_order (m : mesh) : list node :=
  concat (map (fun c => filter (fun nd => Z.eqb (column nd) (Z.of_nat c)) (nodes m))
              (seq 0 (Z.to_nat (num_columns m)))).

Lemma renumber_single : forall l, NoDup (map node_id l) -> renumber l = l.
Proof.
  intros l H. unfold renumber.
  destruct (Nat.eqb_spec (fold_right Nat.add 0%nat (map node_id l)) 0) as [E0 | E0]; auto.
  assert (Hz : forall l, fold_right Nat.add 0%nat (map node_id l) = 0%nat ->
                     forall a, In a l -> node_id a = 0%nat).
  { induction l0 as [| a l0 IHl]; simpl; intros Hs b Hb; [destruct Hb |].
    destruct Hb as [Hb | Hb]; [subst; lia | apply IHl; auto; lia]. }
  destruct l as [| a [| a' l']]; auto.
  - simpl in *. unfold with_id. destruct a; simpl in *. f_equal. f_equal. lia.
  - exfalso. simpl in H. inversion H; subst. apply H2. left.
    rewrite (Hz _ E0 a), (Hz _ E0 a'); simpl; auto.
Qed.

Lemma filter_nodup_id : forall c l, NoDup (map node_id l) ->
  NoDup (map node_id (filter (fun nd => Z.eqb (column nd) c) l)).
Proof.
  intros c l. induction l as [| nd l IH]; simpl; intros H; [constructor |].
  inversion H; subst. destruct (Z.eqb (column nd) c); simpl; [constructor |]; auto.
  intro Hin; apply H2. apply in_map_iff in Hin. destruct Hin as [x [E Hx]].
  apply filter_In in Hx. rewrite <- E. apply in_map. tauto.
Qed.

Lemma mesh_ops_in_order : forall m p cols, NoDup (map node_id (nodes m)) -> columns m = Some cols ->
  mesh_ops m false p cols = map (fun nd => (mzis m false p (node_id nd), top nd, bottom nd)) (in_order m).
Proof.
  intros m p cols Hnd Hc. unfold mesh_ops, mesh_idxs, in_order. unfold columns in Hc.
  apply all_some_map in Hc.
  induction Hc as [| c mm l r Hm Hc IH]; [reflexivity |]. simpl.
  rewrite map_app, <- IH. f_equal. rewrite (mk_mesh_triples _ _ _ Hm).
  rewrite renumber_single by (apply filter_nodup_id; auto).
  unfold ops_of. rewrite map_map. reflexivity.
Qed.

Lemma mesh_product : forall m p x y, wf_mesh m -> style m = TOP -> own_data m ->
  (forall nd, In nd (nodes m) -> snd (loss nd) = 0 /\ n_of nd = n_rails m) ->
  matrix_fn m false p x = Some y ->
  veq (n_rails m) y (apply_gammas (gammas p)
    (fold_left (fun v nd => app (n_rails m) (mzi_node_matrix nd (thetas p (node_id nd)) (phis p (node_id nd))) v)
               (in_order m) x)).
Proof.
  intros m p x y Hwf Hs Hown Hloss H. destruct (wf_total m Hwf) as (cols & Hc & Hok).
  destruct Hwf as (Hd & Hr & Hnd & _).
  destruct (matrix_fn_run _ _ _ _ _ Hd H) as (c1 & Hc1 & _ & E1).
  rewrite Hc in Hc1; inversion Hc1; subst c1. subst y.
  pose proof (mesh_ops_ok m false p cols Hd Hc (Hok false)) as Hops.
  rewrite (mesh_ops_in_order m p cols Hnd Hc) in *.
  intros i Hi. unfold apply_gammas. f_equal.
  assert (Hin : forall nd, In nd (in_order m) -> In nd (nodes m)).
  { intros nd Hnd'. unfold in_order in Hnd'. apply in_concat in Hnd'. destruct Hnd' as [l [Hl Hx]].
    apply in_map_iff in Hl. destruct Hl as [c [E _]]; subst l. apply filter_In in Hx. tauto. }
  revert Hops Hin i Hi. generalize (in_order m). intros l. revert x H.
  assert (HX : forall l x x', Forall (ok (n_rails m))
     (map (fun nd => (mzis m false p (node_id nd), top nd, bottom nd)) l) ->
     (forall nd, In nd l -> In nd (nodes m)) -> veq (n_rails m) x x' ->
     veq (n_rails m) (run (map (fun nd => (mzis m false p (node_id nd), top nd, bottom nd)) l) x)
       (fold_left (fun v nd => app (n_rails m) (mzi_node_matrix nd (thetas p (node_id nd)) (phis p (node_id nd))) v) l x')).
  { induction l0 as [| nd l0 IH]; intros x x' Hops Hin Hx; auto.
    cbn [map fold_left]. inversion Hops; subst. rewrite run_cons. apply IH; auto.
    - intros; apply Hin; right; auto.
    - destruct (Hown nd (Hin nd (or_introl eq_refl))) as [He Hl].
      destruct (Hloss nd (Hin nd (or_introl eq_refl))) as [Hl2 Hn].
      rewrite <- (app_veq (n_rails m) _ _ _ Hx).
      unfold mzi_node_matrix. rewrite Hn, <- parallel_mzi_node by auto.
      assert (Emz : mzis m false p (node_id nd) =
        parallel_mzi TOP false (thetas p (node_id nd)) (phis p (node_id nd)) (bs_error nd) (loss nd)).
      { unfold mzis. rewrite Hs, He, Hl. reflexivity. }
      rewrite <- Emz. intros j Hj. symmetry. apply embed_app; auto. }
  intros x _ Hops Hin i Hi. apply HX; auto. intros j Hj; auto.
Qed.

(** ids equal to positions: own data. *)
Lemma own_data_positions : forall l s m, mk_mesh l s = Some m -> map node_id (nodes m) = seq 0 (length l) -> own_data m.
Proof.
  intros l s m H Hid nd Hin.
  destruct l as [| nd0 l0]; [discriminate |]. set (l := nd0 :: l0) in *. inversion H; subst m. simpl in *.
  apply In_nth with (d := nd) in Hin. destruct Hin as [k [Hk E]].
  assert (Hlen : length (renumber l) = length l) by apply renumber_length. 
  assert (Eid : node_id nd = k).
  { assert (nth k (map node_id (renumber l)) 0%nat = nth k (seq 0 (length l)) 0%nat) by (rewrite Hid; auto).
    rewrite (nth_indep _ 0%nat (node_id nd)) in H0 by (rewrite map_length; auto).
    rewrite map_nth, E, seq_nth in H0 by lia. simpl in H0. auto. }
  unfold err_at, loss_at; cbn [bs_errors losses]. rewrite Eid.
  change (bs_error nd0 :: map bs_error l0) with (map bs_error l).
  change (loss nd0 :: map loss l0) with (map loss l).
  rewrite <- (renumber_keeps _ bs_error) by auto. rewrite <- (renumber_keeps _ loss) by auto.
  split.
  - rewrite (nth_indep _ _ (bs_error nd)) by (rewrite map_length; auto). rewrite map_nth, E. auto.
  - rewrite (nth_indep _ _ (loss nd)) by (rewrite map_length; auto). rewrite map_nth, E. auto.
Qed.
