(** Composition of meshes by offset, offset_column and aggregate; column_ordered. *)
From Coq Require Import Reals Lra Lia List ZArith Permutation Bool FunctionalExtensionality.
From Verif Require Import Cx Arr Spec_circuit Model_coupling Model_forward Model_rect Model_meshops Spec_mesh Spec_meshops
  Proof_mesh Proof_forward Proof_forward2 Proof_forward4 Proof_tree Proof_rect5 Proof_nbasis Proof_nbasis4 Proof_columns.
Import ListNotations.
Local Open Scope nat_scope.

Lemma mk_build : forall l s n M, l <> [] -> NoDup (map node_id l) ->
  (forall nd, In nd l -> (0 <= column nd < M)%Z /\ n_of nd = n) -> (exists nd, In nd l /\ column nd = (M - 1)%Z) ->
  exists m, mk_mesh l s = Some m /\ nodes m = l /\ style m = s /\ n_rails m = n /\ bs_errors m = map bs_error l /\
    losses m = map loss l /\ num_columns m = M.
Proof.
  intros [| a l] s n M H Hi Hr (w & Hw & Ew); [congruence |]. unfold mk_mesh. eexists. split; [reflexivity |].
  cbn [nodes style n_rails bs_errors losses num_columns]. split; [apply renumber_single; exact Hi |]. split; [reflexivity |].
  split; [apply Hr; left; reflexivity |]. split; [reflexivity |]. split; [reflexivity |].
  rewrite (zmax_is (map column (a :: l)) (column a) (M - 1)%Z); [lia | | |].
  - intros x Hx. apply in_map_iff in Hx. destruct Hx as (nd & <- & Hn). destruct (Hr nd Hn) as [? _]. lia.
  - apply in_map_iff. exists w. auto.
  - destruct (Hr a ltac:(left; reflexivity)) as [? _]. lia.
Qed.

Lemma pt_shift : forall el d idx v, parallel_transform el (map (fun x => let '(t, b, k) := x in (t, b, k + d)) idx) v =
  parallel_transform (fun k => el (k + d)) idx v.
Proof.
  intros el d idx v. unfold parallel_transform. f_equal. rewrite !map_map. f_equal; apply map_ext; intros [[t b] k]; reflexivity.
Qed.
Lemma pt_ext : forall el el' idx v, (forall t b k, In (t, b, k) idx -> el k = el' k) -> parallel_transform el idx v = parallel_transform el' idx v.
Proof.
  intros el el' idx v H. unfold parallel_transform. f_equal. f_equal; apply map_ext_in; intros [[t b] k] Hin; rewrite (H t b k Hin); reflexivity.
Qed.
Lemma cols_run_ext : forall el el' idxs v, (forall i t b k, In i idxs -> In (t, b, k) i -> el k = el' k) -> cols_run el idxs v = cols_run el' idxs v.
Proof.
  intros el el' idxs; induction idxs as [| i r IH]; intros v H; [reflexivity |]. unfold cols_run in *. cbn [fold_left].
  rewrite (pt_ext el el' i v) by (intros t b k; apply (H i); left; reflexivity). apply IH. intros; eapply H; [right |]; eassumption.
Qed.
Lemma cols_run_shift : forall el d idxs v, cols_run el (map (map (fun x => let '(t, b, k) := x in (t, b, k + d))) idxs) v = cols_run (fun k => el (k + d)) idxs v.
Proof.
  intros el d idxs; induction idxs as [| i r IH]; intros v; [reflexivity |]. unfold cols_run in *. cbn [map fold_left]. rewrite pt_shift. apply IH.
Qed.

(** matrix_fn in both directions. *)
Lemma matrix_both : forall m back p x, wf_mesh m -> matrix_fn m back p x = Some (
  if back then cols_run (mzis m true p) (rev (all_idx m)) (apply_gammas (gammas p) x)
  else apply_gammas (gammas p) (cols_run (mzis m false p) (all_idx m) x)).
Proof.
  intros m back p x Hw. destruct (wf_all m Hw) as (cols & E1 & E2 & E3 & E4 & E5 & E6 & E7).
  unfold matrix_fn. rewrite E1. cbv zeta. destruct back.
  - rewrite map_rev, E3, forallb_rev by exact E5. reflexivity.
  - rewrite E3, E5. reflexivity.
Qed.
Lemma gammas_zero : forall v, apply_gammas (fun _ => 0%R) v = v.
Proof. intros v. apply functional_extensionality; intros i. unfold apply_gammas. rewrite cis_0. ring. Qed.

Definition sh (d : nat) (c : Z) (nd : node) : node := with_column (with_id nd (node_id nd + d)) (column nd + c)%Z.
Lemma shifted_nodes : forall b d c, nodes (offset_column (offset b d) c) = map (sh d c) (nodes b).
Proof. intros. cbn [offset_column offset nodes]. rewrite map_map. reflexivity. Qed.
Lemma sh_column : forall d c nd, column (sh d c nd) = (column nd + c)%Z. Proof. reflexivity. Qed.

Lemma nic_app : forall l1 l2 c, nodes_in_column (l1 ++ l2) c = nodes_in_column l1 c ++ nodes_in_column l2 c.
Proof. intros. apply filter_app. Qed.
Lemma nic_none : forall l c, (forall nd, In nd l -> column nd <> c) -> nodes_in_column l c = [].
Proof.
  induction l as [| a l IH]; intros c H; [reflexivity |]. unfold nodes_in_column in *. cbn [filter].
  destruct (Z.eqb_spec (column a) c) as [E | _]; [exfalso; apply (H a); [left; reflexivity | exact E] |]. apply IH. intros; apply H; right; auto.
Qed.
Lemma nic_sh : forall l d c c', nodes_in_column (map (sh d c) l) c' = map (sh d c) (nodes_in_column l (c' - c)%Z).
Proof.
  induction l as [| a l IH]; intros d c c'; [reflexivity |]. unfold nodes_in_column in *. cbn [map filter]. rewrite sh_column, IH.
  destruct (Z.eqb_spec (column a + c) c'), (Z.eqb_spec (column a) (c' - c)); try lia; reflexivity.
Qed.

Section Compose.
Variables a b : mesh.
Hypothesis (Wa : wf_mesh a) (Fa : fresh a) (Wb : wf_mesh b) (Fb : fresh b) (Hn : n_rails a = n_rails b).
Let na := length (nodes a).
Let ca := num_columns a.
Let l := nodes a ++ map (sh na ca) (nodes b).

Lemma id_lt_a : forall nd, In nd (nodes a) -> node_id nd < na.
Proof. intros nd H. destruct Wa as (_ & Hr & _). destruct (Hr nd H) as (_ & _ & K). destruct Fa as (E & _). rewrite E, map_length in K. exact K. Qed.
Lemma id_lt_b : forall nd, In nd (nodes b) -> node_id nd < length (nodes b).
Proof. intros nd H. destruct Wb as (_ & Hr & _). destruct (Hr nd H) as (_ & _ & K). destruct Fb as (E & _). rewrite E, map_length in K. exact K. Qed.
Lemma l_ids : NoDup (map node_id l).
Proof.
  unfold l. rewrite map_app, map_map. destruct Wa as (_ & _ & Ia & _), Wb as (_ & _ & Ib & _).
  rewrite (map_ext (fun x => node_id (sh na ca x)) (fun x => node_id x + na)) by reflexivity.
  rewrite <- (map_map node_id (fun k => k + na)).
  apply NoDup_app_intro; [exact Ia | |].
  - apply FinFun.Injective_map_NoDup; [intros x y; lia | exact Ib].
  - intros x Hx Hy. apply in_map_iff in Hx. destruct Hx as (nd & <- & Hd). apply id_lt_a in Hd. apply in_map_iff in Hy. destruct Hy as (k & E & _). lia.
Qed.
Lemma l_cols : forall nd, In nd l -> (0 <= column nd < ca + num_columns b)%Z /\ n_of nd = n_rails a.
Proof.
  intros nd H. apply in_app_or in H. destruct Fa as (_ & _ & Ra & Pa), Fb as (_ & _ & Rb & Pb). destruct H as [H | H].
  - destruct (Ra nd H) as [? ?]. split; [unfold ca in *; lia | auto].
  - apply in_map_iff in H. destruct H as (x & <- & Hx). destruct (Rb x Hx) as [? ?]. rewrite sh_column. split; [unfold ca in *; lia |]. cbn. congruence.
Qed.
Lemma l_cover : forall c, (0 <= c < ca + num_columns b)%Z -> exists nd, In nd l /\ column nd = c.
Proof.
  intros c Hc. destruct (Z.lt_ge_cases c ca) as [L | L].
  - destruct Wa as (_ & _ & _ & K). destruct (K c ltac:(fold ca; lia)) as (nd & ? & ?). exists nd. split; [apply in_or_app; auto | auto].
  - destruct Wb as (_ & _ & _ & K). destruct (K (c - ca)%Z ltac:(lia)) as (nd & H1 & H2). exists (sh na ca nd).
    split; [apply in_or_app; right; apply in_map; exact H1 | rewrite sh_column; lia].
Qed.
Lemma a_nonempty : nodes a <> [].
Proof. destruct Fa as (_ & _ & _ & P). destruct Wa as (_ & _ & _ & K). destruct (K 0%Z ltac:(lia)) as (nd & H & _). intros E. rewrite E in H. destruct H. Qed.
Lemma l_nic : forall c, nodes_in_column l c = if (c <? ca)%Z then nodes_in_column (nodes a) c else map (sh na ca) (nodes_in_column (nodes b) (c - ca)).
Proof.
  intros c. unfold l. rewrite nic_app, nic_sh. destruct Fa as (_ & _ & Ra & Pa), Fb as (_ & _ & Rb & Pb). destruct (Z.ltb_spec c ca).
  - rewrite (nic_none (nodes b)); [cbn; apply app_nil_r |]. intros nd Hd. destruct (Rb nd Hd). lia.
  - rewrite (nic_none (nodes a)); [reflexivity |]. intros nd Hd. destruct (Ra nd Hd). unfold ca in *. lia.
Qed.
Lemma l_rails : rails_disjoint l.
Proof.
  intros c. cbv zeta. change (filter (fun nd => (column nd =? c)%Z) l) with (nodes_in_column l c). rewrite l_nic.
  destruct (Z.ltb_spec c ca).
  - destruct Wa as (D & _). exact (D c).
  - destruct Wb as (D & _). rewrite !map_map. exact (D (c - ca)%Z).
Qed.

Lemma compose_ok : style a = TOP -> style b = TOP ->
 exists m, aggregate [a; offset_column (offset b (length (nodes a))) (num_columns a)] = Some m /\
  wf_mesh m /\ fresh m /\ style m = TOP /\ n_rails m = n_rails a /\ length (nodes m) = length (nodes a) + length (nodes b) /\
  num_columns m = (num_columns a + num_columns b)%Z /\
  forall pa pb x,
   (exists y, matrix_fn a false (no_gammas pa) x = Some y /\ matrix_fn m false (join_params (length (nodes a)) pa pb) x = matrix_fn b false pb y) /\
   (exists y, matrix_fn b true pb x = Some y /\ matrix_fn m true (join_params (length (nodes a)) pa pb) x = matrix_fn a true (no_gammas pa) y).
Proof.
  intros Sa Sb. unfold aggregate. cbn [map concat]. rewrite app_nil_r, shifted_nodes. fold na ca. fold l.
  assert (Hne : l <> []) by (unfold l; intros E; apply app_eq_nil in E; destruct E as [E _]; exact (a_nonempty E)).
  pose proof Fa as (EBa & ELa & Ra & Pa). pose proof Fb as (EBb & ELb & Rb & Pb).
  destruct (mk_build l TOP (n_rails a) (ca + num_columns b)%Z Hne l_ids l_cols) as (m & E & EN & ES & ER & EB & EL & EC); [apply l_cover; unfold ca in *; lia |].
  exists m. split; [exact E |].
  assert (Ll : length l = na + length (nodes b)) by (unfold l; rewrite app_length, map_length; reflexivity).
  assert (W : wf_mesh m).
  { split; [rewrite EN; exact l_rails |]. split; [| split; [rewrite EN; exact l_ids |]].
    - rewrite EN, ER, EB, map_length, Ll. intros nd H. unfold l in H. apply in_app_or in H. destruct H as [H | H].
      + pose proof (id_lt_a nd H). destruct Wa as (_ & K & _). destruct (K nd H) as (? & ? & _). repeat split; lia.
      + apply in_map_iff in H. destruct H as (x & <- & Hx). pose proof (id_lt_b x Hx). destruct Wb as (_ & K & _). destruct (K x Hx) as (? & ? & _).
        rewrite Hn. cbn. repeat split; lia.
    - rewrite EN, EC. exact l_cover. }
  assert (F : fresh m).
  { split; [rewrite EN; exact EB |]. split; [rewrite EN; exact EL |]. split; [| rewrite EC; unfold ca in *; lia]. rewrite EN, EC, ER. exact l_cols. }
  split; [exact W |]. split; [exact F |]. split; [exact ES |]. split; [exact ER |]. split; [rewrite EN; exact Ll |]. split; [exact EC |].
  assert (A : all_idx m = all_idx a ++ map (map (fun x => let '(t, b, k) := x in (t, b, k + na))) (all_idx b)).
  { unfold all_idx. rewrite EC. fold ca in Pa |- *. rewrite Z2Nat.inj_add by lia. rewrite seq_app, map_app. cbn [plus]. f_equal.
    - apply map_ext_in. intros c Hc. apply in_seq in Hc. unfold col_idx. rewrite EN, l_nic. destruct (Z.ltb_spec (Z.of_nat c) ca); [reflexivity | lia].
    - replace (Z.to_nat ca) with (Z.to_nat ca + 0) at 1 by lia. rewrite <- (map_id (seq (Z.to_nat ca + 0) _)).
      rewrite map_map. generalize 0 at 1 2 as z. intros z. revert z. generalize (Z.to_nat (num_columns b)) as k. induction k as [| k IH]; intros z; [reflexivity |].
      cbn [seq map]. f_equal; [| rewrite <- (IH (S z)); f_equal; f_equal; lia].
      unfold col_idx. rewrite EN, l_nic. destruct (Z.ltb_spec (Z.of_nat (Z.to_nat ca + z)) ca); [lia |].
      rewrite map_map. rewrite (map_map tri). replace (Z.of_nat (Z.to_nat ca + z) - ca)%Z with (Z.of_nat z) by lia. reflexivity. }
  assert (MA : forall back pa pb k, k < na -> mzis m back (join_params na pa pb) k = mzis a back (no_gammas pa) k).
  { intros back pa pb k Hk. unfold mzis, err_at, loss_at. rewrite ES, Sa, EB, EL, EBa, ELa. unfold l. rewrite !map_app.
    rewrite !app_nth1 by (rewrite map_length; exact Hk). cbn [join_params no_gammas thetas phis]. destruct (Nat.ltb_spec k na); [reflexivity | lia]. }
  assert (MB : forall back pa pb k, mzis m back (join_params na pa pb) (k + na) = mzis b back pb k).
  { intros back pa pb k. unfold mzis, err_at, loss_at. rewrite ES, Sb, EB, EL, EBb, ELb. unfold l. rewrite !map_app.
    rewrite !app_nth2 by (rewrite map_length; fold na; lia). rewrite !map_length, !map_map. fold na. replace (k + na - na) with k by lia. cbn [join_params thetas phis].
    destruct (Nat.ltb_spec (k + na) na); [lia |]. replace (k + na - na) with k by lia. reflexivity. }
  assert (IA : forall i t b0 k, In i (all_idx a) -> In (t, b0, k) i -> k < na).
  { intros i t b0 k Hi Hin. unfold all_idx in Hi. apply in_map_iff in Hi. destruct Hi as (c & <- & _). unfold col_idx in Hin. apply in_map_iff in Hin.
    destruct Hin as (nd & Et & Hd). apply filter_In in Hd. destruct Hd as [Hd _]. apply id_lt_a in Hd. unfold tri in Et. congruence. }
  intros pa pb x. split.
  - rewrite (matrix_both a), (matrix_both m) by assumption. eexists. split; [reflexivity |]. rewrite (matrix_both b) by assumption.
    cbn [no_gammas gammas join_params]. rewrite gammas_zero, A, cols_run_app, cols_run_shift.
    rewrite (cols_run_ext _ (mzis a false (no_gammas pa)) (all_idx a) x) by (intros; apply MA; eapply IA; eassumption).
    rewrite (cols_run_ext _ (mzis b false pb) (all_idx b)) by (intros; apply MB). reflexivity.
  - rewrite (matrix_both b), (matrix_both m) by assumption. eexists. split; [reflexivity |]. rewrite (matrix_both a) by assumption.
    cbn [no_gammas gammas join_params]. rewrite gammas_zero, A, rev_app_distr, cols_run_app, <- map_rev, cols_run_shift.
    rewrite (cols_run_ext _ (mzis b true pb) (rev (all_idx b))) by (intros; apply MB).
    rewrite (cols_run_ext _ (mzis a true (no_gammas pa)) (rev (all_idx a))) by (intros i t b0 k Hi Hin; apply MA; eapply IA; [apply in_rev; exact Hi | exact Hin]).
    reflexivity.
Qed.
End Compose.

Lemma sh0 : forall nd, sh 0 0 nd = nd.
Proof. intros [i lo e n t bo al be c]. unfold sh, with_column, with_id. cbn. rewrite Nat.add_0_r, Z.add_0_r. reflexivity. Qed.
Lemma sh_sh : forall d c d' c' nd, sh d c (sh d' c' nd) = sh (d + d') (c + c') nd.
Proof. intros. unfold sh, with_column, with_id. cbn. f_equal; lia. Qed.
Lemma stacked_shift : forall ms d c d' c', map (sh d c) (concat (map nodes (stacked d' c' ms))) = concat (map nodes (stacked (d + d') (c + c') ms)).
Proof.
  induction ms as [| m r IH]; intros d c d' c'; [reflexivity |]. cbn [stacked map concat]. rewrite !shifted_nodes, map_app, IH, map_map.
  f_equal; [apply map_ext; intros; apply sh_sh |]. do 3 f_equal; lia.
Qed.
Lemma mk_mesh_rebuild : forall l s m, mk_mesh l s = Some m -> NoDup (map node_id l) -> nodes m = l.
Proof. intros [| a l] s m H Hn; [discriminate |]. unfold mk_mesh in H. apply Some_inj in H. rewrite <- H. cbn [nodes]. apply renumber_single. exact Hn. Qed.

Lemma fresh_rebuild : forall a, wf_mesh a -> fresh a -> style a = TOP -> exists m, mk_mesh (nodes a) TOP = Some m /\ nodes m = nodes a /\
  wf_mesh m /\ fresh m /\ style m = TOP /\ n_rails m = n_rails a /\ num_columns m = num_columns a /\
  (forall back p x, matrix_fn m back p x = matrix_fn a back p x).
Proof.
  intros a W F S. pose proof W as (D & Hr & Hi & Hc). pose proof F as (EB & EL & Rg & P).
  assert (Hne : nodes a <> []) by (destruct (Hc 0%Z ltac:(lia)) as (nd & H & _); intros E; rewrite E in H; destruct H).
  destruct (mk_build (nodes a) TOP (n_rails a) (num_columns a) Hne Hi Rg) as (m & E & EN & ES & ER & EB' & EL' & EC); [apply Hc; lia |].
  exists m. split; [exact E |]. split; [exact EN |].
  assert (W' : wf_mesh m) by (unfold wf_mesh; rewrite EN, ER, EC, EB', <- EB; exact W).
  split; [exact W' |]. split; [unfold fresh; rewrite EN, EB', EL', EC, ER; repeat split; try reflexivity; try apply Rg; try assumption |].
  split; [exact ES |]. split; [exact ER |]. split; [exact EC |].
  intros back p x. rewrite !matrix_both by assumption. 
  assert (A : all_idx m = all_idx a) by (unfold all_idx, col_idx; rewrite EN, EC; reflexivity).
  assert (Mz : mzis m back p = mzis a back p) by (unfold mzis, err_at, loss_at; rewrite ES, S, EB', EL', EB, EL; reflexivity).
  rewrite A. destruct back; rewrite Mz; reflexivity.
Qed.

Lemma chain_ok : forall ms N, ms <> [] -> (forall m, In m ms -> wf_mesh m /\ fresh m /\ style m = TOP /\ n_rails m = N) ->
  exists m, aggregate (stacked 0 0 ms) = Some m /\ wf_mesh m /\ fresh m /\ style m = TOP /\ n_rails m = N /\
   nodes m = concat (map nodes (stacked 0 0 ms)) /\ num_columns m = fold_right Z.add 0%Z (map num_columns ms) /\
   forall ps x, length ps = length ms -> matrix_fn m false (join_all (combine ms ps)) x = chain (combine ms ps) x.
Proof.
  induction ms as [| a r IH]; intros N Hne H; [congruence |].
  destruct (H a ltac:(left; reflexivity)) as (Wa & Fa & Sa & Na). destruct r as [| b r].
  - destruct (fresh_rebuild a Wa Fa Sa) as (m & E & EN & W & F & S & Rr & Cc & M). exists m. unfold aggregate. cbn [stacked map concat].
    rewrite app_nil_r, shifted_nodes, (map_ext (sh 0 0) (fun x => x)), map_id by apply sh0.
    split; [exact E |]. split; [exact W |]. split; [exact F |]. split; [exact S |]. split; [congruence |]. split; [exact EN |].
    split; [cbn; lia |]. intros [| p [| q ps]] x L; try discriminate L. cbn [combine join_all chain]. apply M.
  - destruct (IH N) as (mr & Er & Wr & Fr & Sr & Nr & Enr & Ecr & Mr); [discriminate | intros; apply H; right; assumption |].
    destruct (compose_ok a mr Wa Fa Wr Fr ltac:(congruence) Sa Sr) as (m & E & W & F & S & Nn & Ln & Cn & M).
    assert (EL : concat (map nodes (stacked 0 0 (a :: b :: r))) = nodes a ++ map (sh (length (nodes a)) (num_columns a)) (nodes mr)).
    { remember (b :: r) as br. cbn [stacked map concat]. rewrite shifted_nodes, (map_ext (sh 0 0) (fun x => x)), map_id by apply sh0.
      rewrite Enr, stacked_shift. do 4 f_equal; lia. }
    unfold aggregate in E. cbn [map concat] in E. rewrite app_nil_r, shifted_nodes in E.
    exists m. unfold aggregate. rewrite EL. split; [exact E |]. split; [exact W |]. split; [exact F |]. split; [exact S |]. split; [congruence |].
    split; [rewrite <- EL in E |- *; apply (mk_mesh_rebuild _ _ _ E); rewrite EL; apply l_ids; assumption || congruence |]. split; [rewrite Cn, Ecr; reflexivity |].
    intros [| p ps] x L; [discriminate L |]. cbn [combine] in *. destruct ps as [| q ps]; [discriminate L |]. specialize (Mr (q :: ps)).
    cbn [combine] in *. destruct (M p (join_all ((b, q) :: combine r ps)) x) as [(y & Y1 & Y2) _].
    change (join_all ((a, p) :: (b, q) :: combine r ps)) with (join_params (length (nodes a)) p (join_all ((b, q) :: combine r ps))).
    rewrite Y2. change (chain ((a, p) :: (b, q) :: combine r ps) x) with (match matrix_fn a false (no_gammas p) x with Some y => chain ((b, q) :: combine r ps) y | None => None end).
    rewrite Y1. apply Mr. cbn in L |- *. lia.
Qed.
