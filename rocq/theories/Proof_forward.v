(** Mesh-level lemmas about matrix_fn. *)
From Coq Require Import Reals Lra Lia Psatz List ZArith Permutation Bool FunctionalExtensionality.
From Verif Require Import Cx Arr Spec_circuit Model_coupling Model_forward Spec_mesh Proof_node Proof_mesh.
Import ListNotations.
Local Open Scope R_scope.

(** ** columns *)
Lemma all_some_map : forall A B (f : A -> option B) l r, all_some (map f l) = Some r ->
  Forall2 (fun a b => f a = Some b) l r.
Proof.
  induction l as [| a l IH]; intros r H; simpl in H.
  - inversion H; constructor.
  - destruct (f a) eqn:E; [| discriminate]. destruct (all_some (map f l)) eqn:E2; [| discriminate].
    inversion H; subst. constructor; auto.
Qed.
Lemma all_some_ex : forall A B (f : A -> option B) l, (forall a, In a l -> exists b, f a = Some b) ->
  exists r, all_some (map f l) = Some r.
Proof.
  induction l as [| a l IH]; intros H; simpl; [eauto |].
  destruct (H a) as [b Hb]; [left; auto |]. rewrite Hb.
  destruct IH as [r Hr]; [intros; apply H; right; auto |]. rewrite Hr. eauto.
Qed.

Lemma renumber_keeps : forall A (f : node -> A), (forall nd i, f (with_id nd i) = f nd) ->
  forall l, map f (renumber l) = map f l.
Proof.
  intros A f Hf l. unfold renumber. destruct (Nat.eqb _ 0); auto.
  rewrite map_map. rewrite (map_ext _ (fun p => f (snd p))) by (intros [a b]; simpl; auto).
  generalize 0%nat. induction l as [| nd l IH]; intros k; simpl; auto. f_equal; auto.
Qed.
Lemma renumber_length : forall l, length (renumber l) = length l.
Proof.
  intros l. rewrite <- (map_length top), renumber_keeps, map_length; auto.
Qed.

Lemma mk_mesh_triples : forall l s m, mk_mesh l s = Some m ->
  triples m = map (fun nd => (top nd, bottom nd, node_id nd)) (renumber l).
Proof.
  intros l s m H. destruct l as [| nd l]; [discriminate |]. inversion H; subst. unfold triples; simpl.
  generalize (renumber (nd :: l)). intro r. induction r as [| x r IH]; simpl; auto. f_equal; auto.
Qed.
Lemma mk_mesh_rails : forall l s m, mk_mesh l s = Some m -> rails (triples m) = map top l ++ map bottom l.
Proof.
  intros l s m H. rewrite (mk_mesh_triples l s m H). unfold rails. rewrite !map_map. simpl.
  rewrite !renumber_keeps by auto. reflexivity.
Qed.

Lemma columns_rails : forall m cols, rails_disjoint (nodes m) -> columns m = Some cols ->
  Forall (fun c => NoDup (rails (triples c))) cols.
Proof.
  intros m cols Hd Hc. unfold columns in Hc. apply all_some_map in Hc.
  induction Hc as [| c mm l r Hm Hc IH]; constructor; auto.
  rewrite (mk_mesh_rails _ _ _ Hm). apply (Hd (Z.of_nat c)).
Qed.

(** The operations of a mesh, in propagation order. *)
Definition mesh_idxs (m : mesh) (back : bool) (cols : list mesh) :=
  map triples (if back then rev cols else cols).
Definition mesh_ops (m : mesh) (back : bool) (p : params) (cols : list mesh) : list op :=
  concat (map (ops_of (mzis m back p)) (mesh_idxs m back cols)).

Lemma mesh_idxs_nodup : forall m back cols, rails_disjoint (nodes m) -> columns m = Some cols ->
  Forall (fun i => NoDup (rails i)) (mesh_idxs m back cols).
Proof.
  intros m back cols Hd Hc. pose proof (columns_rails _ _ Hd Hc) as H.
  unfold mesh_idxs. apply Forall_map. destruct back; auto. apply Forall_rev; auto.
Qed.

Lemma matrix_fn_run : forall m back p x y, rails_disjoint (nodes m) -> matrix_fn m back p x = Some y ->
  exists cols, columns m = Some cols /\
    forallb (idx_ok (n_rails m) (length (bs_errors m))) (mesh_idxs m back cols) = true /\
    y = if back then run (mesh_ops m back p cols) (apply_gammas (gammas p) x)
        else apply_gammas (gammas p) (run (mesh_ops m back p cols) x).
Proof.
  intros m back p x y Hd H. unfold matrix_fn in H. destruct (columns m) as [cols |] eqn:Hc; [| discriminate].
  fold (mesh_idxs m back cols) in H.
  destruct (forallb _ _) eqn:Hok in H; [| discriminate].
  exists cols; split; auto; split; auto. inversion H; subst.
  pose proof (mesh_idxs_nodup _ back _ Hd Hc).
  destruct back; rewrite fold_transform_run by auto; reflexivity.
Qed.

Lemma matrix_fn_total : forall m back p x cols, columns m = Some cols ->
  forallb (idx_ok (n_rails m) (length (bs_errors m))) (mesh_idxs m back cols) = true ->
  exists y, matrix_fn m back p x = Some y.
Proof.
  intros m back p x cols Hc Hok. unfold matrix_fn. rewrite Hc. fold (mesh_idxs m back cols). rewrite Hok. eauto.
Qed.

Lemma ops_ok : forall n nn el idxs, forallb (idx_ok n nn) idxs = true ->
  Forall (fun i => NoDup (rails i)) idxs -> Forall (ok n) (concat (map (ops_of el) idxs)).
Proof.
  intros n nn el idxs H Hnd. rewrite forallb_forall in H.
  apply Forall_forall. intros [[q t] b] Hin. apply in_concat in Hin.
  destruct Hin as [l [Hl Hin]]. apply in_map_iff in Hl. destruct Hl as [i [E Hi]]; subst l.
  unfold ops_of in Hin. apply in_map_iff in Hin. destruct Hin as [[[t' b'] k] [E Hk]].
  inversion E; subst. pose proof (H i Hi) as Hok. unfold idx_ok in Hok. rewrite forallb_forall in Hok.
  specialize (Hok _ Hk). simpl in Hok. apply andb_prop in Hok; destruct Hok as [Hok Hkk].
  apply andb_prop in Hok; destruct Hok as [Ht Hb]. apply Nat.ltb_lt in Ht, Hb.
  simpl; repeat split; auto.
  rewrite Forall_forall in Hnd. specialize (Hnd i Hi).
  clear - Hk Hnd. induction i as [| [[t'' b''] k''] i IH]; [destruct Hk |].
  destruct (rails_nodup_cons _ _ _ _ Hnd) as (Htb & H1 & H2 & H3).
  destruct Hk as [E | Hk]; [inversion E; subst; auto | auto].
Qed.

Lemma mesh_ops_ok : forall m back p cols, rails_disjoint (nodes m) -> columns m = Some cols ->
  forallb (idx_ok (n_rails m) (length (bs_errors m))) (mesh_idxs m back cols) = true ->
  Forall (ok (n_rails m)) (mesh_ops m back p cols).
Proof.
  intros. eapply ops_ok; eauto. apply mesh_idxs_nodup; auto.
Qed.

Lemma mesh_ops_quads : forall m back p cols o, In o (mesh_ops m back p cols) ->
  exists k, quad_of o = mzis m back p k.
Proof.
  intros m back p cols [[q t] b] H. unfold mesh_ops in H. apply in_concat in H.
  destruct H as [l [Hl Hin]]. apply in_map_iff in Hl. destruct Hl as [i [E Hi]]; subst l.
  unfold ops_of in Hin. apply in_map_iff in Hin. destruct Hin as [[[t' b'] k] [E Hk]].
  inversion E; subst. exists k; reflexivity.
Qed.

Lemma loss_at_zero : forall m, lossless m -> forall k, loss_at m k = (0, 0).
Proof.
  intros m H k. unfold loss_at. destruct (nth_in_or_default k (losses m) (0, 0)) as [Hin | E]; auto.
  unfold lossless in H. rewrite Forall_forall in H. apply H; auto.
Qed.
Lemma loss_at_neg : forall m, attenuating m -> forall k, fst (loss_at m k) <= 0 /\ snd (loss_at m k) <= 0.
Proof.
  intros m H k. unfold loss_at. destruct (nth_in_or_default k (losses m) (0, 0)) as [Hin | E].
  - unfold attenuating in H. rewrite Forall_forall in H. apply H; auto.
  - rewrite E; simpl; lra.
Qed.
Lemma err_at_equal : forall m, equal_errors m -> forall k, fst (err_at m k) = snd (err_at m k).
Proof.
  intros m H k. unfold err_at. destruct (nth_in_or_default k (bs_errors m) (0, 0)) as [Hin | E].
  - unfold equal_errors in H. rewrite Forall_forall in H. apply H; auto.
  - rewrite E; auto.
Qed.

Lemma mesh_ops_unit : forall m back p cols, lossless m ->
  Forall (fun o => quad_unit (quad_of o)) (mesh_ops m back p cols).
Proof.
  intros. apply Forall_forall. intros o Ho. destruct (mesh_ops_quads _ _ _ _ _ Ho) as [k E]. rewrite E.
  unfold mzis. rewrite loss_at_zero by auto. apply parallel_mzi_unit.
Qed.
Lemma mesh_ops_contr : forall m back p cols, attenuating m ->
  Forall (fun o => quad_contr (quad_of o)) (mesh_ops m back p cols).
Proof.
  intros. apply Forall_forall. intros o Ho. destruct (mesh_ops_quads _ _ _ _ _ Ho) as [k E]. rewrite E.
  unfold mzis. destruct (loss_at_neg m H k). apply parallel_mzi_contr; auto.
Qed.

(** ** gammas *)
Lemma gammas_power : forall n g v, power n (apply_gammas g v) = power n v.
Proof.
  intros. unfold power, apply_gammas. apply Rsum_ext; intros. rewrite Cn2_mul, Cn2_cis. ring.
Qed.
Lemma gammas_lin : forall g a x b y, apply_gammas g (lin a x b y) = lin a (apply_gammas g x) b (apply_gammas g y).
Proof. intros. apply functional_extensionality; intro j. unfold apply_gammas, lin. ring. Qed.
Lemma gammas_adj : forall n g x y, Csum n (fun i => x i * apply_gammas g y i)%C = Csum n (fun i => apply_gammas g x i * y i)%C.
Proof. intros. apply Csum_ext; intros. unfold apply_gammas. ring. Qed.

(** ** Lossless, attenuating *)
Lemma mesh_power : forall m back p x y, rails_disjoint (nodes m) -> lossless m ->
  matrix_fn m back p x = Some y -> power (n_rails m) y = power (n_rails m) x.
Proof.
  intros m back p x y Hd Hl H. destruct (matrix_fn_run _ _ _ _ _ Hd H) as (cols & Hc & Hok & E).
  subst y. destruct back; rewrite ?gammas_power, run_power, ?gammas_power;
    auto using mesh_ops_ok, mesh_ops_unit.
Qed.
Lemma mesh_power_le : forall m back p x y, rails_disjoint (nodes m) -> attenuating m ->
  matrix_fn m back p x = Some y -> power (n_rails m) y <= power (n_rails m) x.
Proof.
  intros m back p x y Hd Hl H. destruct (matrix_fn_run _ _ _ _ _ Hd H) as (cols & Hc & Hok & E).
  subst y. destruct back.
  - rewrite <- (gammas_power _ (gammas p) x).
    apply run_power_le; auto using mesh_ops_ok, mesh_ops_contr.
  - rewrite gammas_power. apply run_power_le; auto using mesh_ops_ok, mesh_ops_contr.
Qed.

Lemma mesh_linear : forall m back p a x b y, rails_disjoint (nodes m) ->
  matrix_fn m back p (lin a x b y) =
  match matrix_fn m back p x, matrix_fn m back p y with
  | Some x', Some y' => Some (lin a x' b y') | _, _ => None end.
Proof.
  intros m back p a x b y Hd. unfold matrix_fn. destruct (columns m) as [cols |] eqn:Hc; auto.
  fold (mesh_idxs m back cols).
  destruct (forallb _ _); auto. pose proof (mesh_idxs_nodup _ back _ Hd Hc).
  destruct back; rewrite !fold_transform_run by auto; rewrite ?gammas_lin, run_lin, ?gammas_lin; reflexivity.
Qed.

(** The matrix entries of matrix() and the matrix-vector relation. *)
Lemma mesh_matrix_vec : forall m back p x y, rails_disjoint (nodes m) -> matrix_fn m back p x = Some y ->
  exists U : mat, (forall i j, matrix m back p i j = Some (U i j)) /\ veq (n_rails m) y (app (n_rails m) U x).
Proof.
  intros m back p x y Hd H. destruct (matrix_fn_run _ _ _ _ _ Hd H) as (cols & Hc & Hok & E).
  exists (fun i j => (if back then run (mesh_ops m back p cols) (apply_gammas (gammas p) (basis j))
        else apply_gammas (gammas p) (run (mesh_ops m back p cols) (basis j))) i).
  split.
  - intros i j. unfold matrix. destruct (matrix_fn_total m back p (basis j) cols Hc Hok) as [z Hz].
    rewrite Hz. destruct (matrix_fn_run _ _ _ _ _ Hd Hz) as (cols' & Hc' & _ & E').
    rewrite Hc in Hc'; inversion Hc'; subst cols'. rewrite E'. reflexivity.
  - intros i Hi. subst y. unfold app. pose proof (mesh_ops_ok m back p cols Hd Hc Hok) as Hops.
    destruct back.
    + rewrite (run_matrix (n_rails m)) by auto. apply Csum_ext; intros j Hj.
      assert (Eb : apply_gammas (gammas p) (basis j) = lin (cis (gammas p j)) (basis j) C0 (basis j)).
      { apply functional_extensionality; intro k. unfold apply_gammas, lin, basis, delta.
        destruct (Nat.eqb_spec k j); subst; ring. }
      rewrite Eb, run_lin. unfold lin, apply_gammas. ring.
    + unfold apply_gammas at 1. rewrite (run_matrix (n_rails m)) by auto. rewrite <- Csum_scal.
      apply Csum_ext; intros j Hj. unfold apply_gammas. ring.
Qed.

Lemma wf_total : forall m, wf_mesh m -> exists cols, columns m = Some cols /\
  forall back, forallb (idx_ok (n_rails m) (length (bs_errors m))) (mesh_idxs m back cols) = true.
Proof.
  intros m (Hd & Hr & Hnd & Hcol).
  assert (Hfil : forall c l, NoDup (map node_id l) -> NoDup (map node_id (nodes_in_column l c))).
  { intros c l. induction l as [| nd l IH]; simpl; intros H; [constructor |].
    inversion H; subst. unfold nodes_in_column; simpl. destruct (Z.eqb (column nd) c); simpl; [constructor |]; auto.
    intro Hin; apply H2. apply in_map_iff in Hin. destruct Hin as [x [E Hx]].
    apply filter_In in Hx. rewrite <- E. apply in_map. tauto. }
  destruct (all_some_ex _ _ (fun c => mk_mesh (nodes_in_column (nodes m) (Z.of_nat c)) (style m))
              (seq 0 (Z.to_nat (num_columns m)))) as [cols Hcols].
  - intros c Hc. apply in_seq in Hc. destruct (Hcol (Z.of_nat c)) as [nd [Hin Hnc]]; [lia |].
    assert (Hin' : In nd (nodes_in_column (nodes m) (Z.of_nat c))).
    { apply filter_In; split; auto. apply Z.eqb_eq; auto. }
    destruct (nodes_in_column (nodes m) (Z.of_nat c)); [destruct Hin' |]. simpl; eauto.
  - exists cols; split; auto. intro back.
    assert (Hall : Forall (fun c => idx_ok (n_rails m) (length (bs_errors m)) (triples c) = true) cols).
    { apply all_some_map in Hcols. induction Hcols as [| c mm l r Hm Hc IH]; constructor; auto.
      rewrite (mk_mesh_triples _ _ _ Hm). unfold idx_ok. apply forallb_forall. intros x Hx.
      apply in_map_iff in Hx. destruct Hx as [nd [E Hin]]; subst x.
      set (ll := nodes_in_column (nodes m) (Z.of_nat c)) in *.
      assert (Hll : forall nd, In nd ll -> In nd (nodes m)) by (intros a Ha; apply filter_In in Ha; tauto).
      assert (Hnode : exists nd', In nd' ll /\ top nd' = top nd /\ bottom nd' = bottom nd /\
                        node_id nd' = node_id nd).
      { unfold renumber in Hin. destruct (Nat.eqb_spec (fold_right Nat.add 0%nat (map node_id ll)) 0) as [E0 | E0].
        - assert (Hz : forall l, fold_right Nat.add 0%nat (map node_id l) = 0%nat ->
                     forall a, In a l -> node_id a = 0%nat).
          { induction l0 as [| a l0 IHl]; simpl; intros Hs b Hb; [destruct Hb |].
            destruct Hb as [Hb | Hb]; [subst; lia | apply IHl; auto; lia]. }
          pose proof (Hfil (Z.of_nat c) (nodes m) Hnd) as Hndl. fold ll in Hndl.
          apply in_map_iff in Hin. destruct Hin as [[k nd'] [E1 H1]]. simpl in E1.
          assert (Hk : In nd' ll) by (eapply in_combine_r; eauto).
          destruct ll as [| a ll']; [destruct Hk |].
          destruct ll' as [| a' ll''].
          + simpl in H1. destruct H1 as [H1 | []]. inversion H1; subst. simpl in *.
            exists nd'. repeat split; auto. simpl in E0. lia.
          + exfalso. simpl in Hndl. inversion Hndl; subst. apply H2. left.
            rewrite (Hz _ E0 a), (Hz _ E0 a'); simpl; auto.
        - exists nd; auto. }
      destruct Hnode as (nd' & Hin' & E1 & E2 & E3).
      destruct (Hr nd' (Hll _ Hin')) as (A & B & D).
      rewrite <- E1, <- E2, <- E3. apply andb_true_intro; split; [apply andb_true_intro; split |]; apply Nat.ltb_lt; auto. }
    unfold mesh_idxs. apply forallb_forall. intros i Hi. apply in_map_iff in Hi. destruct Hi as [c [E Hc]]; subst i.
    rewrite Forall_forall in Hall. apply Hall. destruct back; auto. apply in_rev; auto.
Qed.

Lemma wf_matrix_total : forall m back p x, wf_mesh m -> exists y, matrix_fn m back p x = Some y.
Proof.
  intros m back p x H. destruct (wf_total m H) as (cols & Hc & Hok). eapply matrix_fn_total; eauto.
Qed.

Lemma gammas_sesq : forall n g x y, Csum n (fun i => Cconj (apply_gammas g x i) * apply_gammas g y i)%C
  = Csum n (fun i => Cconj (x i) * y i)%C.
Proof. intros. apply Csum_ext; intros. unfold apply_gammas. apply unit_sesq, Cn2_cis. Qed.

Lemma mesh_unitary : forall m back p, wf_mesh m -> lossless m ->
  exists U, (forall i j, matrix m back p i j = Some (U i j)) /\ unitary (n_rails m) U.
Proof.
  intros m back p Hwf Hl. destruct (wf_total m Hwf) as (cols & Hc & Hok). specialize (Hok back).
  destruct Hwf as (Hd & _).
  set (U := fun i j => (if back then run (mesh_ops m back p cols) (apply_gammas (gammas p) (basis j))
        else apply_gammas (gammas p) (run (mesh_ops m back p cols) (basis j))) i).
  exists U. split.
  - intros i j. unfold matrix. destruct (matrix_fn_total m back p (basis j) cols Hc Hok) as [z Hz].
    rewrite Hz. destruct (matrix_fn_run _ _ _ _ _ Hd Hz) as (cols' & Hc' & _ & E').
    rewrite Hc in Hc'; inversion Hc'; subst cols'. rewrite E'. reflexivity.
  - pose proof (mesh_ops_ok m back p cols Hd Hc Hok) as Hops.
    pose proof (mesh_ops_unit m back p cols Hl) as Hun.
    pose proof (run_unitary _ _ Hops Hun) as HU.
    intros i j Hi Hj. specialize (HU i j Hi Hj). destruct HU as [H1 H2].
    assert (Eb : forall j, apply_gammas (gammas p) (basis j) = lin (cis (gammas p j)) (basis j) C0 (basis j)).
    { intro j'. apply functional_extensionality; intro k. unfold apply_gammas, lin, basis, delta.
      destruct (Nat.eqb_spec k j'); subst; ring. }
    unfold U. destruct back.
    + split.
      * rewrite run_sesq, gammas_sesq by auto. rewrite run_sesq in H1 by auto. exact H1.
      * rewrite <- H2. apply Csum_ext; intros k Hk. rewrite !Eb, !run_lin. unfold lin.
        rewrite Cconj_add, !Cconj_mul, Cconj_C0.
        transitivity (cis (gammas p k) * Cconj (cis (gammas p k)) *
          (run (mesh_ops m true p cols) (basis k) i * Cconj (run (mesh_ops m true p cols) (basis k) j)))%C; [ring |].
        rewrite cis_conj_r. ring.
    + split.
      * rewrite gammas_sesq. exact H1.
      * transitivity (cis (gammas p i) * Cconj (cis (gammas p j)) * delta i j)%C.
        -- rewrite <- H2, <- Csum_scal. apply Csum_ext; intros k Hk. unfold apply_gammas.
           rewrite Cconj_mul. ring.
        -- unfold delta. destruct (Nat.eqb_spec i j); [subst; rewrite cis_conj_r; ring | ring].
Qed.

(** ** Order independence inside a column *)
Lemma parallel_transform_perm : forall el idx idx' v, Permutation idx idx' -> NoDup (rails idx) ->
  NoDup (rails idx') -> parallel_transform el idx v = parallel_transform el idx' v.
Proof.
  intros el idx idx' v HP Hnd Hnd'. apply functional_extensionality; intro j.
  destruct (in_dec Nat.eq_dec j (rails idx)) as [Hj | Hj].
  - destruct (rails_inv _ _ Hj) as (t & b & k & Hin & E).
    assert (Hin' : In (t, b, k) idx') by (eapply Permutation_in; eauto).
    destruct E as [E | E]; subst j.
    + rewrite (pt_top el idx v t b k), (pt_top el idx' v t b k); auto.
    + rewrite (pt_bot el idx v t b k), (pt_bot el idx' v t b k); auto.
  - rewrite !pt_other; auto. intro Hj'. apply Hj.
    destruct (rails_inv _ _ Hj') as (t & b & k & Hin & E).
    assert (Hin' : In (t, b, k) idx) by (eapply Permutation_in; [apply Permutation_sym |]; eauto).
    destruct E; subst j; eauto using rails_in_top, rails_in_bot.
Qed.
Lemma rails_perm : forall idx idx', Permutation idx idx' -> Permutation (rails idx) (rails idx').
Proof. intros. unfold rails. apply Permutation_app; apply Permutation_map; auto. Qed.
Lemma rails_nodup_perm : forall idx idx', Permutation idx idx' -> NoDup (rails idx) -> NoDup (rails idx').
Proof. intros. eapply Permutation_NoDup; [apply rails_perm |]; eauto. Qed.

(** ** Reciprocity *)
Lemma mzi_back_trans : forall s theta phi err ls, s <> DIFFERENTIAL -> fst err = snd err ->
  qtrans (parallel_mzi s false theta phi err ls) = parallel_mzi s true theta phi err ls.
Proof.
  intros s theta phi [el er] ls Hs He; simpl in He; subst er.
  unfold parallel_mzi, mzi_terms, qtrans; simpl fst; simpl snd; cbn [b2R].
  replace (1 - 0) with 1 by ring. replace (1 - 1) with 0 by ring.
  destruct s; try congruence; cbn [t11 t12 t21 t22];
    rewrite (Rmult_comm (sin (PI / 4 + el)) (cos (PI / 4 + el))); reflexivity.
Qed.

Lemma run_rev_col : forall el idx v, NoDup (rails idx) -> run (ops_of el (rev idx)) v = run (ops_of el idx) v.
Proof.
  intros el idx v H.
  assert (Hp : Permutation (rev idx) idx) by (apply Permutation_sym, Permutation_rev).
  assert (H' : NoDup (rails (rev idx))) by (eapply rails_nodup_perm; [apply Permutation_rev | auto]).
  rewrite <- !parallel_transform_run by auto. apply parallel_transform_perm; auto.
Qed.

Lemma run_rev_cols : forall elf elb idxs v, Forall (fun i => NoDup (rails i)) idxs ->
  (forall k, qtrans (elf k) = elb k) ->
  run (rev (map op_trans (concat (map (ops_of elf) idxs)))) v = run (concat (map (ops_of elb) (rev idxs))) v.
Proof.
  intros elf elb idxs v Hnd Hel. revert v. induction idxs as [| i idxs IH]; intros v; [reflexivity |].
  inversion Hnd; subst. simpl. rewrite map_app, rev_app_distr, run_app, IH by auto.
  rewrite map_app, concat_app, run_app. simpl. rewrite app_nil_r.
  set (w := run (concat (map (ops_of elb) (rev idxs))) v). clearbody w.
  assert (E : rev (map op_trans (ops_of elf i)) = ops_of elb (rev i)).
  { unfold ops_of. rewrite map_map, map_rev. f_equal. apply map_ext. intros [[t b] k]. simpl. rewrite Hel; auto. }
  rewrite E. apply run_rev_col; auto.
Qed.

Lemma mesh_reciprocal : forall m p, wf_mesh m -> style m <> DIFFERENTIAL -> equal_errors m ->
  forall i j, (i < n_rails m)%nat -> (j < n_rails m)%nat -> matrix m true p i j = matrix m false p j i.
Proof.
  intros m p Hwf Hs He i j Hi Hj. destruct (wf_total m Hwf) as (cols & Hc & Hok).
  destruct Hwf as (Hd & _). unfold matrix.
  destruct (matrix_fn_total m true p (basis j) cols Hc (Hok true)) as [z Hz]. rewrite Hz.
  destruct (matrix_fn_total m false p (basis i) cols Hc (Hok false)) as [w Hw]. rewrite Hw. f_equal.
  destruct (matrix_fn_run _ _ _ _ _ Hd Hz) as (c1 & Hc1 & _ & E1).
  destruct (matrix_fn_run _ _ _ _ _ Hd Hw) as (c2 & Hc2 & _ & E2).
  rewrite Hc in Hc1, Hc2. inversion Hc1; inversion Hc2; subst c1 c2. subst z w.
  assert (Hrun : forall v, run (mesh_ops m true p cols) v = run (rev (map op_trans (mesh_ops m false p cols))) v).
  { intro v. unfold mesh_ops. rewrite (run_rev_cols _ (mzis m true p)).
    - unfold mesh_idxs. rewrite map_rev. reflexivity.
    - apply mesh_idxs_nodup; auto.
    - intro k. unfold mzis. apply mzi_back_trans; auto. apply err_at_equal; auto. }
  rewrite Hrun.
  pose proof (mesh_ops_ok m false p cols Hd Hc (Hok false)) as Hops.
  rewrite <- (Csum_basis (n_rails m) i (run (rev (map op_trans (mesh_ops m false p cols))) (apply_gammas (gammas p) (basis j)))) by auto.
  rewrite <- run_adj by auto. rewrite <- gammas_adj. apply Csum_basis'; auto.
Qed.

(** Nodes constructed with one scalar splitter error have two equal errors. *)
Lemma scalar_reciprocal : forall l s m p, mk_mesh l s = Some m -> wf_mesh m -> s <> DIFFERENTIAL ->
  (forall nd, In nd l -> exists x, bs_error nd = norm_bs_error (PyFloat x)) ->
  forall i j, (i < n_rails m)%nat -> (j < n_rails m)%nat -> matrix m true p i j = matrix m false p j i.
Proof.
  intros l s m p Hm Hwf Hs He. assert (E : style m = s /\ bs_errors m = map bs_error l).
  { destruct l as [| a l]; [discriminate |]. unfold mk_mesh in Hm.
    assert (E : forall x y : mesh, Some x = Some y -> x = y) by (intros x y K; injection K; auto).
    apply E in Hm. subst m. split; reflexivity. }
  destruct E as [Es Eb]. apply mesh_reciprocal; [exact Hwf | rewrite Es; exact Hs |].
  unfold equal_errors. rewrite Eb. apply Forall_forall. intros e Hin. apply in_map_iff in Hin. destruct Hin as [nd [Hnd Hin]].
  destruct (He nd Hin) as [x Hx]. rewrite <- Hnd, Hx. reflexivity.
Qed.
