(** Proofs for C170 (2): programming with common coupler errors and losses. *)
From Coq Require Import Reals Lra Lia List ZArith Permutation Bool FunctionalExtensionality.
From Verif Require Import Cx Arr Spec_circuit Model_coupling Model_forward Model_vector Spec_mesh Spec_tree Spec_vunit
  Proof_node Proof_mesh Proof_forward Proof_forward2 Proof_forward3 Proof_forward4 Proof_null Proof_null2 Proof_tree Proof_vector Proof_vunit.
Import ListNotations.
Local Open Scope R_scope.

Section Unit.
Variables (eps : R) (s : phase_style) (network : mesh) (last : nat) (E L : R * R).
Hypothesis Hs : tb s.
Definition pnE (th ph : R) : quad := parallel_mzi s false th ph E L.
Lemma pnE_mod : forall th ph, pnE th (mod2pi ph) = pnE th ph.
Proof.
  intros th ph. assert (Q : forall x, Cexp (mkC x (mod2pi ph)) = Cexp (mkC x ph)).
  { intro x. unfold Cexp. cbn [re im]. rewrite cis_mod2pi. reflexivity. }
  unfold pnE. destruct Hs as [-> | ->]; unfold parallel_mzi; destruct (mzi_terms E) as [[[cc cs] sc] ss]; cbn [b2R];
    rewrite ?Rmult_0_r, ?Rminus_0_r, ?Rmult_1_r, ?Q; reflexivity.
Qed.
Definition thE (w : vec) (nd : node) : R := nullify_theta eps (mzi_terms E) (w (top nd)) (w (bottom nd)).
Definition phE (w : vec) (nd : node) : R := match nullify_phi s (mzi_terms E) (thE w nd) (w (top nd)) (w (bottom nd)) with Some x => x | None => 0 end.
Lemma phE_some : forall w nd, nullify_phi s (mzi_terms E) (thE w nd) (w (top nd)) (w (bottom nd)) = Some (phE w nd).
Proof.
  intros w nd. unfold phE. destruct (nullify_phi s (mzi_terms E) (thE w nd) (w (top nd)) (w (bottom nd))) eqn:Eq; auto.
  exfalso. destruct Hs as [-> | ->]; unfold nullify_phi in Eq; destruct (mzi_terms E) as [[[cc cs] sc] ss]; discriminate.
Qed.
Definition opE (p : nat -> R) (q : nat -> R) (nd : node) : op := (pnE (p (node_id nd)) (q (node_id nd)), top nd, bottom nd).
Definition own (nd : node) : Prop := bs_error nd = E /\ loss nd = L /\ err_at network (node_id nd) = E.

Lemma column_E : forall l nc st, mk_mesh l s = Some nc -> NoDup (map node_id l) -> NoDup (map top l ++ map bottom l) -> (forall nd, In nd l -> own nd) ->
  exists st', program_column eps network nc last st = Some st' /\
    (forall nd, In nd l -> pth st' (node_id nd) = thE (fun i => pw st i last) nd /\ pph st' (node_id nd) = mod2pi (phE (fun i => pw st i last) nd)) /\
    (forall k, ~ In k (map node_id l) -> pth st' k = pth st k /\ pph st' k = pph st k) /\
    (forall j, (fun i => pw st' i j) = run (map (opE (pth st') (pph st')) l) (fun i => pw st i j)).
Proof.
  intros l nc st Hm Hid Hr Hdef.
  assert (Etr : triples nc = map (fun nd => (top nd, bottom nd, node_id nd)) l) by (rewrite (mk_mesh_triples l s nc Hm), renumber_single; auto).
  assert (Enc : nodes nc = l /\ style nc = s /\ bs_errors nc = map bs_error l /\ losses nc = map loss l).
  { destruct l as [| nd0 l0]; [discriminate |]. unfold mk_mesh in Hm. apply Some_inj in Hm. rewrite <- Hm. cbn [nodes style bs_errors losses].
    rewrite renumber_single by auto. auto. }
  destruct Enc as (En & Est & Ee & El).
  set (w := pw st). set (wl := fun i => w i last).
  assert (Etp : all_some (map (fun x => let '(t, b, k) := x in
      let terms := mzi_terms (err_at network k) in
      let theta := nullify_theta eps terms (w t last) (w b last) in
      obind (nullify_phi (style nc) terms theta (w t last) (w b last)) (fun phi => Some (k, theta, phi)))
    (triples nc)) = Some (map (fun nd => (node_id nd, thE wl nd, phE wl nd)) l)).
  { rewrite Etr, map_map, Est. apply all_some_Some. intros nd Hin. destruct (Hdef nd Hin) as (_ & _ & ->).
    cbv zeta. change (nullify_theta eps (mzi_terms E) (w (top nd) last) (w (bottom nd) last)) with (thE wl nd).
    change (w (top nd) last) with (wl (top nd)). change (w (bottom nd) last) with (wl (bottom nd)). rewrite (phE_some wl nd). reflexivity. }
  set (st' := mkP
    (fun i j => assign (fun r => w r j)
       (map (fun nd => (top nd, qtop (pnE (thE wl nd) (mod2pi (phE wl nd))) (w (top nd) j) (w (bottom nd) j))) l ++
        map (fun nd => (bottom nd, qbot (pnE (thE wl nd) (mod2pi (phE wl nd))) (w (top nd) j) (w (bottom nd) j))) l) i)
    (assign (pth st) (map (fun nd => (node_id nd, thE wl nd)) l))
    (assign (pph st) (map (fun nd => (node_id nd, mod2pi (phE wl nd))) l))).
  exists st'. split.
  - unfold program_column. cbv zeta. cbv zeta in Etp. fold w. rewrite Etp. cbn [obind]. rewrite En, Ee, El, Est. unfold st'. f_equal.
    rewrite !combine_map. rewrite ?map_map. rewrite ?combine_map, ?map_map.
    assert (Hq : forall nd, In nd l -> parallel_mzi s false (thE wl nd) (phE wl nd) (bs_error nd) (loss nd) = pnE (thE wl nd) (mod2pi (phE wl nd))).
    { intros nd Hin. destruct (Hdef nd Hin) as (-> & -> & _). rewrite pnE_mod; auto. }
    f_equal. apply functional_extensionality; intro i. apply functional_extensionality; intro j.
    rewrite !map_map. f_equal. f_equal; apply map_ext_in; intros nd Hin; cbv beta iota; rewrite (Hq nd Hin); reflexivity.
  - split; [| split].
    + intros nd Hin. unfold st'; cbn [pth pph]. split;
        [exact (assign_map_in _ _ (pth st) node_id (thE wl) l nd Hid Hin)
        | exact (assign_map_in _ _ (pph st) node_id (fun nd => mod2pi (phE wl nd)) l nd Hid Hin)].
    + intros k Hk. unfold st'; cbn [pth pph]. split;
        [exact (assign_map_out _ _ (pth st) node_id (thE wl) l k Hk)
        | exact (assign_map_out _ _ (pph st) node_id (fun nd => mod2pi (phE wl nd)) l k Hk)].
    + intros j. unfold st' at 1; cbn [pw].
      pose proof (parallel_transform_run (fun k => pnE (pth st' k) (pph st' k)) (map (fun nd => (top nd, bottom nd, node_id nd)) l) (fun i => w i j)) as Q.
      unfold ops_of in Q. rewrite map_map in Q.
      etransitivity; [| etransitivity; [apply Q |]]; [| | reflexivity].
      * unfold parallel_transform. rewrite !map_map. apply functional_extensionality; intro i. f_equal.
        f_equal; apply map_ext_in; intros nd Hin; unfold st'; cbn [pth pph];
          rewrite (assign_map_in _ _ (pth st) node_id (thE wl) l nd Hid Hin),
            (assign_map_in _ _ (pph st) node_id (fun nd => mod2pi (phE wl nd)) l nd Hid Hin); reflexivity.
      * unfold rails. rewrite !map_map. exact Hr.
Qed.
(** Each node's phases are those found for the light that reaches it. *)
Lemma columns_E : forall ls ncs, Forall2 (fun l nc => mk_mesh l s = Some nc) ls ncs -> forall st,
  NoDup (map node_id (concat ls)) -> Forall (fun l => NoDup (map top l ++ map bottom l)) ls -> (forall nd, In nd (concat ls) -> own nd) ->
  exists st', program_columns eps network ncs last st = Some st' /\
    (forall k, ~ In k (map node_id (concat ls)) -> pth st' k = pth st k /\ pph st' k = pph st k) /\
    (forall j, (fun i => pw st' i j) = run (map (opE (pth st') (pph st')) (concat ls)) (fun i => pw st i j)) /\
    (forall ls1 l ls2, ls = ls1 ++ l :: ls2 -> forall nd, In nd l ->
      let w := run (map (opE (pth st') (pph st')) (concat ls1)) (fun i => pw st i last) in
      pth st' (node_id nd) = thE w nd /\ pph st' (node_id nd) = mod2pi (phE w nd)).
Proof.
  intros ls ncs HF. induction HF as [| l nc ls ncs Hm HF IH]; intros st Hid Hr Hdef.
  - exists st. split; [reflexivity |]. split; [auto |]. split; [reflexivity |]. intros ls1 l ls2 Eq. destruct ls1; discriminate.
  - cbn [concat] in *. pose proof (Forall_inv Hr) as Hr1. pose proof (Forall_inv_tail Hr) as Hr2. rewrite map_app in Hid.
    destruct (column_E l nc st Hm (NoDup_app_fst _ _ _ Hid) Hr1 (fun nd Hin => Hdef nd (in_or_app _ _ _ (or_introl Hin)))) as (st1 & E1 & Hin1 & Hout1 & Hw1).
    destruct (IH st1 (NoDup_app_snd _ _ _ Hid) Hr2 (fun nd Hin => Hdef nd (in_or_app _ _ _ (or_intror Hin)))) as (st2 & E2 & Hout2 & Hw2 & Htr).
    assert (Hsep : forall nd, In nd l -> ~ In (node_id nd) (map node_id (concat ls))).
    { intros nd Hin Hx. apply in_split in Hin. destruct Hin as (d1 & d2 & ->). rewrite map_app in Hid. cbn [map] in Hid.
      rewrite <- List.app_assoc in Hid. apply NoDup_app_snd in Hid. cbn in Hid. apply NoDup_cons_iff in Hid. destruct Hid as [HN _]. apply HN. apply in_or_app. auto. }
    assert (Hsame : map (opE (pth st1) (pph st1)) l = map (opE (pth st2) (pph st2)) l).
    { apply map_ext_in. intros nd Hin. unfold opE. destruct (Hout2 (node_id nd) (Hsep nd Hin)) as (-> & ->). reflexivity. }
    exists st2. split; [cbn [program_columns]; rewrite E1; cbn [obind]; exact E2 |]. split; [| split].
    + intros k Hk. rewrite map_app in Hk. destruct (Hout2 k) as (-> & ->); [intro; apply Hk; apply in_or_app; auto |]. apply Hout1. intro; apply Hk; apply in_or_app; auto.
    + intros j. rewrite map_app, run_app, Hw2, Hw1, Hsame. reflexivity.
    + intros ls1 l' ls2 Eq nd Hin. destruct ls1 as [| l1 ls1]; cbn [List.app] in Eq; injection Eq as <- Eq.
      * cbv zeta. cbn [concat map run fold_left]. destruct (Hout2 (node_id nd) (Hsep nd Hin)) as (-> & ->). exact (Hin1 nd Hin).
      * cbv zeta. cbn [concat]. rewrite map_app, run_app, <- Hsame, <- Hw1. exact (Htr ls1 l' ls2 Eq nd Hin).
Qed.
End Unit.

(** ** The mesh with errors. *)
Lemma set_errors_nodes : forall n s t e l, (2 <= n)%nat -> style t = s -> n_rails t = n -> nulling_network n t ->
  (forall nd, In nd (nodes t) -> (0 <= column nd < num_columns t)%Z) -> (forall nd, In nd (nodes t) -> n_of nd = n) ->
  length (bs_errors t) = length (nodes t) -> length (losses t) = length (nodes t) -> wf_mesh t ->
  exists m, set_errors t e l = Some m /\ style m = s /\ n_rails m = n /\ nodes m = map (fun nd => with_errors nd (e, e) (l, l)) (nodes t) /\
    num_columns m = num_columns t /\ bs_errors m = map (fun _ => (e, e)) (nodes t) /\ losses m = map (fun _ => (l, l)) (nodes t).
Proof.
  intros n s t e l Hn Hst Hrt Hnull Hcol Hno Le Ll Hwf.
  assert (Hlen : length (nodes t) = (n - 1)%nat) by apply Hnull.
  set (f := fun nd => with_errors nd (e, e) (l, l)).
  assert (EL : map (fun x => let '(nd, (e, l)) := x in with_errors nd e l) (combine (nodes t) (combine (map (fun _ => (e, e)) (bs_errors t)) (map (fun _ => (l, l)) (losses t)))) = map f (nodes t)).
  { clear - Le Ll. revert Le Ll. generalize (bs_errors t) (losses t). induction (nodes t) as [| nd r IH]; intros bs lo Le Ll; [reflexivity |].
    destruct bs as [| b0 bs]; [discriminate |]. destruct lo as [| l0 lo]; [discriminate |]. cbn [map combine]. rewrite IH by (cbn in *; lia). reflexivity. }
  unfold set_errors, add_error_mean. rewrite EL, Hst.
  destruct (nodes t) as [| nd0 l0] eqn:En; [simpl in Hlen; lia |]. rewrite <- En in *.
  assert (Hid : NoDup (map node_id (map f (nodes t)))). { rewrite map_map. change (fun x => node_id (f x)) with node_id. apply Hwf. }
  destruct (mk_mesh (map f (nodes t)) s) as [m |] eqn:Em; [| rewrite En in Em; discriminate].
  exists m. split; [reflexivity |].
  assert (Enc : num_columns m = num_columns t).
  { assert (Em' := Em). rewrite En in Em'. cbn [map] in Em'. destruct (mk_mesh_cols _ _ _ _ Em') as [H1 (x & Hx & Ex)].
    assert (Hcf : forall x, In x (f nd0 :: map f l0) -> exists y, In y (nodes t) /\ column x = column y).
    { intros y Hy. change (f nd0 :: map f l0) with (map f (nd0 :: l0)) in Hy. rewrite <- En in Hy. apply in_map_iff in Hy. destruct Hy as (z & <- & Hz). exists z. split; auto. }
    destruct (Hcf x Hx) as (y & Hy & Ey). pose proof (Hcol y Hy) as Hc.
    destruct (proj2 (proj2 (proj2 Hwf)) (num_columns t - 1)%Z ltac:(lia)) as (z & Hz & Ez).
    specialize (H1 (f z)). assert (Hfz : In (f z) (f nd0 :: map f l0)) by (change (In (f z) (map f (nd0 :: l0))); rewrite <- En; apply in_map; auto).
    specialize (H1 Hfz). change (column (f z)) with (column z) in H1. lia. }
  unfold mk_mesh in Em. rewrite En in Em. cbn [map] in Em. change (f nd0 :: map f l0) with (map f (nd0 :: l0)) in Em. rewrite <- En in Em.
  rewrite renumber_single in Em by exact Hid. apply Some_inj in Em.
  assert (F : style m = s /\ n_rails m = n_of nd0 /\ nodes m = map f (nodes t) /\ bs_errors m = map bs_error (map f (nodes t)) /\ losses m = map loss (map f (nodes t)))
    by (rewrite <- Em; cbn [style n_rails nodes bs_errors losses]; repeat split; try reflexivity; rewrite En; reflexivity).
  destruct F as (F1 & F2 & F3 & F4 & F5). split; [exact F1 |]. split; [rewrite F2; apply Hno; rewrite En; left; auto |]. split; [exact F3 |]. split; [exact Enc |].
  rewrite F4, F5, !map_map. split; reflexivity.
Qed.
(** Everything vector_unit does for TOP and BOTTOM, without claims about nulling. *)
Definition ord (m : mesh) : list (list node) := map (fun c => nodes_in_column (nodes m) (Z.of_nat c)) (seq 0 (Z.to_nat (num_columns m))).
Lemma unit_runs : forall eps v n last balanced s e l, (2 <= n)%nat -> tb s ->
  exists t m p w, tree n n balanced s = Some t /\ nodes m = map (fun nd => with_errors nd (e, e) (l, l)) (nodes t) /\ style m = s /\ n_rails m = n /\
    bs_errors m = map (fun _ => (e, e)) (nodes t) /\ losses m = map (fun _ => (l, l)) (nodes t) /\ nulling_network n m /\ wf_mesh m /\
    vector_unit eps v n last n balanced s e l = Some (m, p, w) /\ Permutation (concat (ord m)) (nodes m) /\
    (forall p' x, matrix_fn m false p' x = Some (apply_gammas (gammas p') (run (map (opE s (e, e) (l, l) (thetas p') (phis p')) (concat (ord m))) x))) /\
    (forall j, (fun i => w i j) = run (map (opE s (e, e) (l, l) (thetas p) (phis p)) (concat (ord m))) (fun i => v i j)) /\
    (forall i, gammas p i = if Nat.eqb i (n - 1) then - Carg (w (n - 1)%nat last) else 0) /\
    (forall ls1 l' ls2, ord m = ls1 ++ l' :: ls2 -> forall nd, In nd l' ->
      let x := run (map (opE s (e, e) (l, l) (thetas p) (phis p)) (concat ls1)) (fun i => v i last) in
      thetas p (node_id nd) = thE eps (e, e) x nd /\ phis p (node_id nd) = mod2pi (phE eps s (e, e) x nd)).
Proof.
  intros eps v n last balanced s e l Hn Hs.
  assert (Ht : exists t, tree n n balanced s = Some t /\ style t = s /\ n_rails t = n /\ nulling_network n t /\
    (forall nd, In nd (nodes t) -> (0 <= column nd < num_columns t)%Z) /\ (forall nd, In nd (nodes t) -> n_of nd = n) /\
    length (bs_errors t) = length (nodes t) /\ length (losses t) = length (nodes t) /\ wf_mesh t).
  { destruct balanced.
    - destruct (tree_balanced n n s Hn (le_n n)) as (t & Et & H1 & H2 & H3 & H4 & H5 & H6 & H7 & H8 & H9 & H10). exists t. rewrite H8, H9, !map_length.
      split; [auto |]. split; [auto |]. split; [auto |]. split; [auto |]. split; [auto |]. split; [intros nd Hin; apply (H7 nd Hin) |]. auto.
    - destruct (tree_chain n n s Hn (le_n n)) as (t & Et & H1 & H2 & H3 & H4 & H5 & H6 & H7 & H8 & H9 & H10). exists t. rewrite H8, H9, !map_length.
      assert (Hcol : forall nd, In nd (nodes t) -> (0 <= column nd < num_columns t)%Z).
      { intros nd Hin. destruct (H6 nd Hin) as (A1 & A2 & ->). rewrite H5. destruct H3 as (_ & H3 & _).
        assert (Hi : In (node_id nd) (seq 0 (n - 1))) by (eapply Permutation_in; [exact H3 | apply in_map; auto]). apply in_seq in Hi. lia. }
      split; [auto |]. split; [auto |]. split; [auto |]. split; [auto |]. split; [auto |]. split; [intros nd Hin; apply (H7 nd Hin) |]. auto. }
  destruct Ht as (t & Et & T1 & T2 & T3 & T4 & T5 & T6 & T7 & T8).
  destruct (set_errors_nodes n s t e l Hn T1 T2 T3 T4 T5 T6 T7 T8) as (m & Em & M1 & M2 & M3 & M4 & M5 & M6).
  set (f := fun nd => with_errors nd (e, e) (l, l)) in *.
  assert (Hlen : length (nodes t) = (n - 1)%nat) by apply T3.
  assert (Hin : forall nd, In nd (nodes m) -> exists x, In x (nodes t) /\ nd = f x) by (intros nd H; rewrite M3 in H; apply in_map_iff in H; destruct H as (x & <- & H); eauto).
  assert (Nids : map node_id (nodes m) = map node_id (nodes t)) by (rewrite M3, map_map; reflexivity).
  assert (Ntops : map top (nodes m) = map top (nodes t)) by (rewrite M3, map_map; reflexivity).
  assert (Ncol : forall c, nodes_in_column (nodes m) c = map f (nodes_in_column (nodes t) c)).
  { intro c. rewrite M3. unfold nodes_in_column. clear. induction (nodes t) as [| x r IH]; [reflexivity |]. cbn [map filter]. change (column (f x)) with (column x).
    destruct (Z.eqb (column x) c); cbn [map]; rewrite IH; reflexivity. }
  assert (Null : nulling_network n m).
  { unfold nulling_network. rewrite Nids, Ntops, M3, map_length. destruct T3 as (A1 & A2 & A3 & A4 & A5). split; [exact A1 |]. split; [exact A2 |]. split; [exact A3 |]. rewrite <- M3. split.
    - intros nd H. destruct (Hin nd H) as (x & Hx & ->). exact (A4 x Hx).
    - intros a b Ha Hb. destruct (Hin a Ha) as (x & Hx & ->). destruct (Hin b Hb) as (y & Hy & ->). exact (A5 x y Hx Hy). }
  assert (Wf : wf_mesh m).
  { destruct T8 as (W1 & W2 & W3 & W4). unfold wf_mesh. split; [| split; [| split]].
    - intro c. cbv zeta. change (filter (fun nd => Z.eqb (column nd) c) (nodes m)) with (nodes_in_column (nodes m) c). rewrite Ncol, !map_map. exact (W1 c).
    - intros nd H. destruct (Hin nd H) as (x & Hx & ->). specialize (W2 x Hx). rewrite M2, M5, map_length. rewrite T2, T6 in W2. exact W2.
    - rewrite Nids. exact W3.
    - intros c Hc. rewrite M4 in Hc. destruct (W4 c Hc) as (x & Hx & Ex). exists (f x). split; [rewrite M3; apply in_map; auto | exact Ex]. }
  destruct (wf_total m Wf) as (cols & Hc & _).
  pose proof (columns_Forall2 m cols Hc) as HF. rewrite M1 in HF. fold (ord m) in HF.
  assert (HP : Permutation (concat (ord m)) (nodes m)).
  { apply in_order_perm. intros nd H. destruct (Hin nd H) as (x & Hx & ->). specialize (T4 x Hx). change (column (f x)) with (column x). lia. }
  assert (Eat : forall k, (k < n - 1)%nat -> err_at m k = (e, e) /\ loss_at m k = (l, l)).
  { intros k Hk. unfold err_at, loss_at. rewrite M5, M6. split.
    - rewrite (nth_indep _ _ (e, e)) by (rewrite map_length; lia). apply nth_const. intros x Hx. apply in_map_iff in Hx. destruct Hx as (? & <- & _). reflexivity.
    - rewrite (nth_indep _ _ (l, l)) by (rewrite map_length; lia). apply nth_const. intros x Hx. apply in_map_iff in Hx. destruct Hx as (? & <- & _). reflexivity. }
  assert (Idr : forall nd, In nd (nodes m) -> (node_id nd < n - 1)%nat).
  { intros nd H. destruct Null as (_ & A2 & _). assert (I : In (node_id nd) (seq 0 (n - 1))) by (eapply Permutation_in; [exact A2 | apply in_map; auto]). apply in_seq in I. lia. }
  destruct (columns_E eps s m last (e, e) (l, l) Hs (ord m) cols HF (mkP v (fun _ => 0) (fun _ => 0))) as (st & Est & _ & Hw & Htr).
  - eapply Permutation_NoDup; [apply Permutation_map, Permutation_sym, HP |]. apply Wf.
  - apply Forall_forall. intros l1 Hl. unfold ord in Hl. apply in_map_iff in Hl. destruct Hl as (c & <- & _). apply (proj1 Wf).
  - intros nd H. assert (H' : In nd (nodes m)) by (eapply Permutation_in; [exact HP | exact H]). split; [| split].
    + destruct (Hin nd H') as (x & _ & ->). reflexivity.
    + destruct (Hin nd H') as (x & _ & ->). reflexivity.
    + apply Eat. apply Idr. exact H'.
  - cbn [pw] in Hw, Htr.
    exists t, m, (mkParams (pth st) (pph st) (fun i => if Nat.eqb i (n - 1) then - Carg (pw st (n - 1)%nat last) else 0)), (pw st).
    split; [exact Et |]. split; [exact M3 |]. split; [exact M1 |]. split; [exact M2 |]. split; [exact M5 |]. split; [exact M6 |]. split; [exact Null |]. split; [exact Wf |].
    split; [unfold vector_unit; rewrite Et; cbn [obind]; rewrite Em; cbn [obind]; unfold program_vector_unit; rewrite Hc; cbn [obind]; rewrite Est; reflexivity |].
    split; [exact HP |]. cbn [thetas phis gammas]. split; [| split; [exact Hw | split; [reflexivity | exact Htr]]].
    intros p x. destruct (wf_matrix_total m false p x Wf) as [y Hy]. rewrite Hy.
    destruct (matrix_fn_run _ _ _ _ _ (proj1 Wf) Hy) as (cols' & Hc' & _ & ->).
    rewrite (mesh_ops_in_order m p cols') by (auto; apply Wf). f_equal. f_equal. f_equal. unfold in_order. fold (ord m).
    apply map_ext_in. intros nd H. assert (H' : In nd (nodes m)) by (eapply Permutation_in; [exact HP | exact H]).
    unfold opE. f_equal. f_equal. unfold mzis, pnE. destruct (Eat (node_id nd) (Idr nd H')) as (-> & ->). rewrite M1. reflexivity.
Qed.
