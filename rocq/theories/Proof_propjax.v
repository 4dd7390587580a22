(** Proofs for C162. *)
From Coq Require Import Reals Lra Lia List ZArith Bool Permutation FunctionalExtensionality.
From Verif Require Import Cx Arr Model_coupling Model_forward Model_null Model_propjax Spec_mesh Proof_mesh Proof_forward Proof_forward2 Proof_forward4 Proof_vector Proof_nbasis5.
Import ListNotations.
Local Open Scope R_scope.

Lemma cis_zero : cis 0 = C1.
Proof. unfold cis. rewrite cos_0, sin_0. reflexivity. Qed.

Lemma assign_any : forall order l l' (v : vec), any_order order -> (forall j y, In (j, y) l -> In (j, y) l' \/ y = v j) ->
  (forall j y, In (j, y) l' -> In (j, y) l) -> (forall j y y', In (j, y) l -> In (j, y') l -> y = y') -> assign v (order l) = assign v l'.
Proof.
  intros order l l' v Ho H1 H2 H3. apply functional_extensionality; intro j.
  destruct (in_dec Nat.eq_dec j (map fst l)) as [Hj | Hj].
  - apply in_map_iff in Hj. destruct Hj as [[j0 y] [E Hin]]; cbn in E; subst j0.
    rewrite (assign_any_order order l v j y Ho).
    + destruct (in_dec Nat.eq_dec j (map fst l')) as [Hj' | Hj'].
      * symmetry. apply (assign_any_order (fun l => l) l' v j y); [intro; apply Permutation_refl | assumption |].
        intros y' Hy'. apply (H3 j); auto.
      * rewrite (assign_any_order_notin (fun l => l) l' v j); [| intro; apply Permutation_refl | assumption].
        destruct (H1 j y Hin) as [Hc | Hc]; [| assumption]. exfalso; apply Hj'. apply in_map_iff. exists (j, y); auto.
    + apply in_map_iff. exists (j, y); auto.
    + intros y' Hy'. apply (H3 j); auto.
  - rewrite (assign_any_order_notin order l v j Ho Hj). symmetry. apply (assign_any_order_notin (fun l => l) l' v j).
    + intro; apply Permutation_refl.
    + intro Hc. apply Hj. apply in_map_iff in Hc. destruct Hc as [[j0 y] [E Hin]]; cbn in E; subst j0. apply in_map_iff.
      exists (j, y); auto.
Qed.

Lemma mult_column : forall order s ph idx d k v, any_order order -> NoDup (rails idx) -> ((0 < k)%nat -> ~ In d (rails idx)) ->
  parallel_multiply_jax order s ph (map (fun x => (x, true)) idx ++ repeat (d, d, 0%nat, false) k) v = parallel_multiply s ph idx v.
Proof.
  intros order s ph idx d k v Ho Hnd Hd. destruct s; [| | reflexivity | reflexivity].
  - cbn [parallel_multiply_jax parallel_multiply]. f_equal. apply assign_any; [assumption | | |].
    + intros j y H. apply in_map_iff in H. destruct H as [[[[t b] i] mk] [E H]]. apply in_app_or in H. destruct H as [H | H].
      * apply in_map_iff in H. destruct H as [[[t' b'] i'] [E' H]]. inversion E'; subst. inversion E; subst. left.
        apply in_map_iff. exists (j, b, i). split; [| assumption]. cbn [b2R]. rewrite Rmult_1_r. reflexivity.
      * apply repeat_spec in H. inversion H; subst. inversion E; subst. right. cbn [b2R]. rewrite Rmult_0_r, cis_zero. ring.
    + intros j y H. apply in_map_iff in H. destruct H as [[[t b] i] [E H]]. inversion E; subst. apply in_map_iff.
      exists (j, b, i, true). split; [cbn [b2R]; rewrite Rmult_1_r; reflexivity |]. apply in_or_app. left. apply in_map_iff.
      exists (j, b, i); auto.
    + intros j y y' H H'. apply in_map_iff in H. destruct H as [[[[t b] i] mk] [E H]]. apply in_map_iff in H'. destruct H' as [[[[t' b'] i'] mk'] [E' H']].
      inversion E; subst. inversion E'; subst. apply in_app_or in H, H'. destruct H as [H | H], H' as [H' | H'].
      * apply in_map_iff in H, H'. destruct H as [[[t1 b1] i1] [F1 G1]], H' as [[[t2 b2] i2] [F2 G2]]. inversion F1; subst. inversion F2; subst.
        destruct (nodup_top_unique idx j b i b' i' Hnd G1 G2); subst. reflexivity.
      * apply in_map_iff in H. destruct H as [[[t1 b1] i1] [F1 G1]]. inversion F1; subst. 
        assert (Hk : (0 < k)%nat) by (destruct k; [destruct H' | lia]). apply repeat_spec in H'. inversion H'; subst. exfalso. apply (Hd Hk). eapply rails_in_top; eauto.
      * apply in_map_iff in H'. destruct H' as [[[t1 b1] i1] [F1 G1]]. inversion F1; subst.
        assert (Hk : (0 < k)%nat) by (destruct k; [destruct H | lia]). apply repeat_spec in H. inversion H; subst. exfalso. apply (Hd Hk). eapply rails_in_top; eauto.
      * apply repeat_spec in H, H'. inversion H; inversion H'; subst. reflexivity.
  - cbn [parallel_multiply_jax parallel_multiply]. f_equal. apply assign_any; [assumption | | |].
    + intros j y H. apply in_map_iff in H. destruct H as [[[[t b] i] mk] [E H]]. apply in_app_or in H. destruct H as [H | H].
      * apply in_map_iff in H. destruct H as [[[t' b'] i'] [E' H]]. inversion E'; subst. inversion E; subst. left.
        apply in_map_iff. exists (t, j, i). split; [| assumption]. cbn [b2R]. rewrite Rmult_1_r. reflexivity.
      * apply repeat_spec in H. inversion H; subst. inversion E; subst. right. cbn [b2R]. rewrite Rmult_0_r, cis_zero. ring.
    + intros j y H. apply in_map_iff in H. destruct H as [[[t b] i] [E H]]. inversion E; subst. apply in_map_iff.
      exists (t, j, i, true). split; [cbn [b2R]; rewrite Rmult_1_r; reflexivity |]. apply in_or_app. left. apply in_map_iff.
      exists (t, j, i); auto.
    + intros j y y' H H'. apply in_map_iff in H. destruct H as [[[[t b] i] mk] [E H]]. apply in_map_iff in H'. destruct H' as [[[[t' b'] i'] mk'] [E' H']].
      inversion E; subst. inversion E'; subst. apply in_app_or in H, H'. destruct H as [H | H], H' as [H' | H'].
      * apply in_map_iff in H, H'. destruct H as [[[t1 b1] i1] [F1 G1]], H' as [[[t2 b2] i2] [F2 G2]]. inversion F1; subst. inversion F2; subst.
        destruct (nodup_bot_unique idx t j i t' i' Hnd G1 G2); subst. reflexivity.
      * apply in_map_iff in H. destruct H as [[[t1 b1] i1] [F1 G1]]. inversion F1; subst.
        assert (Hk : (0 < k)%nat) by (destruct k; [destruct H' | lia]). apply repeat_spec in H'. inversion H'; subst. exfalso. apply (Hd Hk). eapply rails_in_bot; eauto.
      * apply in_map_iff in H'. destruct H' as [[[t1 b1] i1] [F1 G1]]. inversion F1; subst.
        assert (Hk : (0 < k)%nat) by (destruct k; [destruct H | lia]). apply repeat_spec in H. inversion H; subst. exfalso. apply (Hd Hk). eapply rails_in_bot; eauto.
      * apply repeat_spec in H, H'. inversion H; inversion H'; subst. reflexivity.
Qed.

(** The dummy rail is unused whenever a column is padded. *)
Lemma pad_dummy : forall n nn idxs idx, (forall i, In i idxs -> idx_ok n nn i = true /\ NoDup (rails i)) -> In idx idxs ->
  (0 < fold_right Nat.max 0%nat (map (@length _) idxs) - length idx)%nat -> ~ In (hd 0%nat (dummy_fill n idx)) (rails idx).
Proof.
  intros n nn idxs idx Hall Hin Hw Hd.
  set (w := fold_right Nat.max 0%nat (map (@length _) idxs)) in *.
  assert (Hmax : exists i, In i idxs /\ length i = w).
  { assert (HM : forall l : list (list (nat * nat * nat)), l <> [] ->
       exists i, In i l /\ length i = fold_right Nat.max 0%nat (map (@length _) l)).
    { induction l as [| a l IH]; intros Hne; [congruence |]. simpl.
      destruct l as [| a' l'].
      - exists a; split; [left; auto |]. simpl. lia.
      - destruct IH as [i [Hi El]]; [discriminate |].
        destruct (Nat.max_spec (length a) (fold_right Nat.max 0%nat (map (@length _) (a' :: l')))) as [[_ E] | [_ E]].
        + exists i; split; [right; auto |]. rewrite E; auto.
        + exists a; split; [left; auto |]. rewrite E; auto. }
    apply HM. intro E; subst; destruct Hin. }
  destruct Hmax as [im [Him Elen]].
  destruct (dummy_fill n idx) as [| d0 dl] eqn:Edf.
  + assert (Hcov : incl (seq 0 n) (rails idx)).
    { intros r Hr. apply in_seq in Hr. destruct (in_dec Nat.eq_dec r (rails idx)); auto.
      exfalso. assert (Hx : In r (dummy_fill n idx)) by (apply dummy_fill_spec; split; [lia | auto]).
      rewrite Edf in Hx; destruct Hx. }
    pose proof (NoDup_incl_length (seq_NoDup n 0) Hcov) as H1.
    rewrite seq_length, rails_length in H1.
    destruct (Hall im Him) as [Hok Hnd].
    assert (H2 : incl (rails im) (seq 0 n)).
    { intros r Hr. apply in_seq. pose proof (rails_lt _ _ _ Hok r Hr). lia. }
    pose proof (NoDup_incl_length Hnd H2) as H3. rewrite seq_length, rails_length in H3. lia.
  + assert (Hx : In d0 (dummy_fill n idx)) by (rewrite Edf; left; auto).
    apply dummy_fill_spec in Hx. apply (proj2 Hx). exact Hd.
Qed.

Lemma propagate_column : forall order s back p l r n nn idxs idx v, any_order order ->
  (forall i, In i idxs -> idx_ok n nn i = true /\ NoDup (rails i)) -> In idx idxs ->
  parallel_propagate_jax order s back p l r (pad_column n (fold_right Nat.max 0%nat (map (@length _) idxs)) idx) v =
  parallel_propagate s back p l r idx v.
Proof.
  intros order s back p l r n nn idxs idx v Ho Hall Hin.
  pose proof (fun el u => pad_column_ok order n nn idxs el u idx Ho Hall Hin) as T.
  assert (M : forall ph u, parallel_multiply_jax order s ph (pad_column n (fold_right Nat.max 0%nat (map (@length _) idxs)) idx) u =
    parallel_multiply s ph idx u).
  { intros ph u. unfold pad_column. apply mult_column; [assumption | apply Hall; assumption |]. intro Hk. exact (pad_dummy n nn idxs idx Hall Hin Hk). }
  unfold parallel_propagate_jax, parallel_propagate. destruct back.
  - rewrite T, M. cbv zeta. destruct (parallel_multiply s (thetas p) idx _) as [v2 |]; [| reflexivity]. cbn [obind]. rewrite T, M. reflexivity.
  - rewrite M. destruct (parallel_multiply s (phis p) idx v) as [v1 |]; [| reflexivity]. cbn [obind]. cbv zeta. rewrite T, M.
    destruct (parallel_multiply s (thetas p) idx _) as [v3 |]; [| reflexivity]. cbn [obind]. rewrite T. reflexivity.
Qed.

Lemma scan_same : forall order s back p l r n nn all idxs v, any_order order ->
  (forall i, In i all -> idx_ok n nn i = true /\ NoDup (rails i)) -> (forall i, In i idxs -> In i all) ->
  scan_jax order s back p l r (map (pad_column n (fold_right Nat.max 0%nat (map (@length _) all))) idxs) v = prop_explicit s back p l r idxs v.
Proof.
  intros order s back p l r n nn all idxs. induction idxs as [| i idxs IH]; intros v Ho Hall Hin; [reflexivity |].
  cbn [map scan_jax prop_explicit]. rewrite (propagate_column order s back p l r n nn all i v Ho Hall); [| apply Hin; left; reflexivity].
  destruct (parallel_propagate s back p l r i v) as [sl |]; [| reflexivity]. cbn [obind]. rewrite IH; auto. intros; apply Hin; right; assumption.
Qed.

Lemma prop_jax_gen : forall order m back cutoff p x, any_order order -> rails_disjoint (nodes m) ->
  propagate_jax order m back true cutoff p x =
  obind (columns m) (fun cols =>
    let idxs := map triples (if back then rev cols else cols) in
    if forallb (idx_ok (n_rails m) (length (bs_errors m))) idxs then
      let head := if (back && Z.eqb (cut_of m back cutoff) (-1))%bool then [x; apply_gammas (gammas p) x] else [x] in
      let start := last head x in
      obind (prop_explicit (style m) back p (fun k => parallel_dc false (err_at m k) (loss_at m k))
                                (fun k => parallel_dc true (err_at m k) (loss_at m k)) idxs start)
        (fun sl => let fin := last sl start in
           Some (head ++ sl ++ (if (negb back && Z.eqb (cut_of m back cutoff) (num_columns m))%bool then [apply_gammas (gammas p) fin] else [])))
    else None).
Proof.
  intros order m back cutoff p x Ho Hd. unfold propagate_jax. destruct (columns m) as [cols |] eqn:Hc; [| reflexivity]. cbn [obind]. cbv zeta.
  destruct (forallb _ _) eqn:Hok; [| reflexivity]. unfold padded_idx.
  rewrite (scan_same order (style m) back p _ _ (n_rails m) (length (bs_errors m)) (map triples (if back then rev cols else cols))); [reflexivity | assumption | | auto].
  intros i Hi. split.
  - rewrite forallb_forall in Hok. apply Hok; assumption.
  - pose proof (mesh_idxs_nodup m back cols Hd Hc) as HN. rewrite Forall_forall in HN. apply HN; assumption.
Qed.

Lemma propagate_jax_same : forall order m back p x, (forall l, Permutation (order l) l) -> rails_disjoint (nodes m) ->
  propagate_jax order m back true None p x = propagate m back true p x.
Proof.
  intros order m back p x Ho Hd. rewrite (prop_jax_gen order m back None p x Ho Hd). unfold propagate. destruct (columns m) as [cols |]; [| reflexivity].
  cbn [obind]. cbv zeta. destruct (forallb _ _); [| reflexivity]. unfold cut_of. destruct back; cbn [andb negb]; [reflexivity |]. rewrite Z.eqb_refl. reflexivity.
Qed.

(** forward, any other cut-off: all columns, but the last slice (the gammas) is missing *)
Lemma propagate_jax_cut_forward : forall order m c p x, (forall l, Permutation (order l) l) -> rails_disjoint (nodes m) -> c <> num_columns m ->
  propagate_jax order m false true (Some c) p x = match propagate m false true p x with Some sl => Some (removelast sl) | None => None end.
Proof.
  intros order m c p x Ho Hd Hn. rewrite (prop_jax_gen order m false (Some c) p x Ho Hd). unfold propagate. destruct (columns m) as [cols |]; [| reflexivity].
  cbn [obind]. cbv zeta. destruct (forallb _ _); [| reflexivity]. unfold cut_of. cbn [andb negb].
  replace (Z.eqb c (num_columns m)) with false by (symmetry; apply Z.eqb_neq; assumption).
  destruct (prop_explicit _ _ _ _ _ _ _) as [sl |]; [| reflexivity]. cbn [obind]. rewrite app_nil_r.
  rewrite app_assoc. rewrite removelast_last. reflexivity.
Qed.
Lemma propagate_jax_cut_backward : forall order m c p x, (forall l, Permutation (order l) l) -> rails_disjoint (nodes m) -> c <> (-1)%Z ->
  propagate_jax order m true true (Some c) p x =
  match propagate m true true (mkParams (thetas p) (phis p) (fun _ => 0)) x with Some sl => Some (tl sl) | None => None end.
Proof.
  intros order m c p x Ho Hd Hn. rewrite (prop_jax_gen order m true (Some c) p x Ho Hd). unfold propagate. destruct (columns m) as [cols |]; [| reflexivity].
  cbn [obind]. cbv zeta. destruct (forallb _ _); [| reflexivity]. unfold cut_of. cbn [andb negb].
  replace (Z.eqb c (-1)) with false by (symmetry; apply Z.eqb_neq; assumption). cbn [last].
  assert (G : apply_gammas (fun _ => 0) x = x). { apply functional_extensionality; intro i. unfold apply_gammas. rewrite cis_zero. ring. }
  cbn [gammas]. rewrite G.
  assert (P : forall s b l r idxs v, prop_explicit s b (mkParams (thetas p) (phis p) (fun _ => 0)) l r idxs v = prop_explicit s b p l r idxs v).
  { intros s b l r idxs. induction idxs as [| i idxs IH]; intro v; [reflexivity |]. cbn [prop_explicit].
    replace (parallel_propagate s b (mkParams (thetas p) (phis p) (fun _ => 0)) l r i v) with (parallel_propagate s b p l r i v) by (destruct b; reflexivity).
    destruct (parallel_propagate s b p l r i v); [| reflexivity]. cbn [obind]. rewrite IH. reflexivity. }
  rewrite P. destruct (prop_explicit _ _ _ _ _ _ _) as [sl |]; [| reflexivity]. reflexivity.
Qed.

Lemma propagate_jax_implicit : forall order m back cutoff p x, propagate_jax order m back false cutoff p x = None.
Proof. reflexivity. Qed.
Lemma propagate_nonempty : forall m back p x sl, propagate m back true p x = Some sl -> sl <> [].
Proof.
  intros m back p x sl. unfold propagate. destruct (columns m) as [cols |]; [| discriminate]. cbn [obind]. cbv zeta.
  destruct (forallb _ _); [| discriminate]. destruct (prop_explicit _ _ _ _ _ _ _) as [s |]; [| discriminate]. cbn [obind].
  intros E. apply Some_inj in E. subst sl. destruct back; discriminate.
Qed.
Lemma propagate_jax_cutoff_differs : forall order m (back : bool) c p x sl, (forall l, Permutation (order l) l) -> rails_disjoint (nodes m) ->
  c <> (if back then (-1)%Z else num_columns m) -> propagate_jax order m back true None p x = Some sl ->
  exists sl', propagate_jax order m back true (Some c) p x = Some sl' /\ length sl = S (length sl').
Proof.
  intros order m back c p x sl Ho Hd Hc E. rewrite propagate_jax_same in E by assumption. destruct back.
  - rewrite propagate_jax_cut_backward by assumption.
    assert (L : forall g, match propagate m true true (mkParams (thetas p) (phis p) g) x with Some s => length s = length sl | None => False end).
    { intro g. revert E. unfold propagate. destruct (columns m) as [cols |]; [| discriminate]. cbn [obind]. cbv zeta.
      destruct (forallb _ _); [| discriminate]. cbn [last gammas].
      assert (P : forall l r idxs v v' s, prop_explicit (style m) true p l r idxs v = Some s ->
        exists s', prop_explicit (style m) true (mkParams (thetas p) (phis p) g) l r idxs v' = Some s' /\ length s' = length s).
      { intros l r idxs. induction idxs as [| i idxs IH]; intros v v' s.
        - cbn [prop_explicit]. intros F; apply Some_inj in F; subst s. exists []. split; reflexivity.
        - cbn [prop_explicit]. unfold parallel_propagate. cbn [thetas phis]. destruct (style m); cbn [parallel_multiply obind]; try discriminate.
          + destruct (prop_explicit TOP true p l r idxs _) as [s0 |] eqn:F0; cbn [obind]; [| discriminate]. intros F; apply Some_inj in F; subst s.
            match goal with |- exists _, obind (prop_explicit _ _ _ _ _ _ ?w) _ = _ /\ _ => destruct (IH _ w s0 F0) as (s' & Es' & Ls') end. rewrite Es'. cbn [obind].
            eexists. split; [reflexivity |]. rewrite !app_length, Ls'. reflexivity.
          + destruct (prop_explicit BOTTOM true p l r idxs _) as [s0 |] eqn:F0; cbn [obind]; [| discriminate]. intros F; apply Some_inj in F; subst s.
            match goal with |- exists _, obind (prop_explicit _ _ _ _ _ _ ?w) _ = _ /\ _ => destruct (IH _ w s0 F0) as (s' & Es' & Ls') end. rewrite Es'. cbn [obind].
            eexists. split; [reflexivity |]. rewrite !app_length, Ls'. reflexivity. }
      intros E. match type of E with obind ?X _ = _ => destruct X as [s0 |] eqn:F0 end; cbn [obind] in E; [| discriminate]. apply Some_inj in E; subst sl.
      destruct (P _ _ _ _ (apply_gammas g x) s0 F0) as (s' & Es' & Ls'). rewrite Es'. cbn [obind]. rewrite !app_length, Ls'. reflexivity. }
    specialize (L (fun _ => 0)). destruct (propagate m true true (mkParams (thetas p) (phis p) (fun _ => 0)) x) as [s |] eqn:F; [| contradiction].
    exists (tl s). split; [reflexivity |]. pose proof (propagate_nonempty _ _ _ _ _ F). destruct s; [congruence | cbn in *; lia].
  - rewrite propagate_jax_cut_forward by assumption. rewrite E. exists (removelast sl). split; [reflexivity |].
    pose proof (propagate_nonempty _ _ _ _ _ E) as N. rewrite (app_removelast_last x N) at 1. rewrite app_length. cbn. lia.
Qed.
