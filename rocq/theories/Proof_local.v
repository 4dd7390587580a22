(** Independent circuits, and the order in which the nodes are listed. *)
From Coq Require Import Reals Lra Lia Psatz List ZArith Permutation Bool FunctionalExtensionality.
From Verif Require Import Cx Arr Spec_circuit Model_coupling Model_forward Spec_mesh Proof_node Proof_mesh Proof_forward Proof_forward2 Proof_forward4.
Import ListNotations.
Local Open Scope R_scope.

(** Every operation of a column is a node of the mesh. *)
Lemma col_nodes : forall m cols, NoDup (map node_id (nodes m)) -> columns m = Some cols -> forall mc t b k, In mc cols -> In (t, b, k) (triples mc) ->
  exists nd, In nd (nodes m) /\ top nd = t /\ bottom nd = b /\ node_id nd = k.
Proof.
  intros m cols Hnd Hc mc t b k Hin Ht. unfold columns in Hc. apply all_some_map in Hc.
  induction Hc as [| c mc' sq cs Hm Hc IH]; [destruct Hin |]. destruct Hin as [<- | Hin]; [| apply IH; exact Hin].
  rewrite (mk_mesh_triples _ _ _ Hm) in Ht. unfold nodes_in_column in Ht. rewrite renumber_single in Ht by (apply filter_nodup_id; exact Hnd).
  apply in_map_iff in Ht. destruct Ht as (nd & E & K). apply filter_In in K. destruct K as [K1 _]. exists nd. inversion E. auto.
Qed.

Section Local.
Variable S : nat -> Prop.
Definition agree (u v : vec) : Prop := forall i, S i -> u i = v i.
Lemma pt_agree : forall el el' idx u v, NoDup (rails idx) -> (forall t b k, In (t, b, k) idx -> (S t <-> S b) /\ (S t -> el k = el' k)) ->
  agree u v -> agree (parallel_transform el idx u) (parallel_transform el' idx v).
Proof.
  intros el el' idx u v Hnd Hs H i Hi. destruct (in_dec Nat.eq_dec i (rails idx)) as [Hj | Hj].
  - destruct (rails_inv _ _ Hj) as (t & b & k & Hin & E). destruct (Hs t b k Hin) as [A B].
    assert (St : S t) by (destruct E; subst i; tauto). assert (Sb : S b) by tauto.
    destruct E; subst i.
    + rewrite (pt_top el idx u t b k), (pt_top el' idx v t b k) by auto. rewrite B, (H t), (H b) by auto. reflexivity.
    + rewrite (pt_bot el idx u t b k), (pt_bot el' idx v t b k) by auto. rewrite B, (H t), (H b) by auto. reflexivity.
  - rewrite !pt_other by auto. apply H; exact Hi.
Qed.
Lemma fold_agree : forall el el' idxs, Forall (fun i => NoDup (rails i)) idxs ->
  (forall idx, In idx idxs -> forall t b k, In (t, b, k) idx -> (S t <-> S b) /\ (S t -> el k = el' k)) -> forall u v,
  agree u v -> agree (fold_left (fun w idx => parallel_transform el idx w) idxs u) (fold_left (fun w idx => parallel_transform el' idx w) idxs v).
Proof.
  intros el el' idxs. induction idxs as [| idx idxs IH]; intros Hnd Hs u v H; [exact H |]. cbn [fold_left]. inversion Hnd; subst. apply IH; auto.
  - intros i Hi. apply Hs. right; exact Hi.
  - apply pt_agree; auto. apply Hs. left; reflexivity.
Qed.
Lemma mesh_local : forall m back p p' x x' y y', wf_mesh m ->
  (forall nd, In nd (nodes m) -> (S (top nd) <-> S (bottom nd))) ->
  (forall nd, In nd (nodes m) -> S (top nd) -> thetas p (node_id nd) = thetas p' (node_id nd) /\ phis p (node_id nd) = phis p' (node_id nd)) ->
  (forall i, S i -> gammas p i = gammas p' i) -> (forall i, S i -> x i = x' i) ->
  matrix_fn m back p x = Some y -> matrix_fn m back p' x' = Some y' -> forall i, S i -> y i = y' i.
Proof.
  intros m back p p' x x' y y' (Hd & Hr & Hnd & Hcol) Hs Hph Hg Hx Hy Hy'.
  unfold matrix_fn in Hy, Hy'. destruct (columns m) as [cols |] eqn:Hc; [| discriminate].
  destruct (forallb _ _) eqn:Hok in Hy; [| discriminate]. rewrite Hok in Hy'.
  assert (Inj : forall a b : vec, Some a = Some b -> a = b) by (intros a b K; congruence). apply Inj in Hy, Hy'. clear Inj.
  pose proof (mesh_idxs_nodup m back cols Hd Hc) as Hnd2. unfold mesh_idxs in Hnd2.
  assert (Hel : forall idx, In idx (map triples (if back then rev cols else cols)) -> forall t b k, In (t, b, k) idx ->
     (S t <-> S b) /\ (S t -> mzis m back p k = mzis m back p' k)).
  { intros idx Hi t b k Hk. apply in_map_iff in Hi. destruct Hi as (mc & <- & Hmc).
    assert (Hmc' : In mc cols) by (destruct back; [apply in_rev; exact Hmc | exact Hmc]).
    destruct (col_nodes m cols Hnd Hc mc t b k Hmc' Hk) as (nd & N1 & <- & <- & <-).
    split; [apply Hs; exact N1 |]. intro St. destruct (Hph nd N1 St) as [E1 E2]. unfold mzis. rewrite E1, E2. reflexivity. }
  assert (Ag : forall g g' u v, (forall i, S i -> g i = g' i) -> agree u v -> agree (apply_gammas g u) (apply_gammas g' v)).
  { intros g g' u v Eg Eu i Hi. unfold apply_gammas. rewrite (Eg i Hi), (Eu i Hi). reflexivity. }
  intros i Hi. rewrite <- Hy, <- Hy'. destruct back.
  - apply (fold_agree _ _ _ Hnd2 Hel); [| exact Hi]. apply Ag; assumption.
  - apply Ag; [assumption | | exact Hi]. apply (fold_agree _ _ _ Hnd2 Hel). exact Hx.
Qed.
End Local.

Lemma matrix_zero : forall m back p y, rails_disjoint (nodes m) -> matrix_fn m back p (fun _ => C0) = Some y -> forall i, y i = C0.
Proof.
  intros m back p y Hd H i. pose proof (mesh_linear m back p C0 (fun _ => C0) C0 (fun _ => C0) Hd) as L.
  assert (E : lin C0 (fun _ => C0) C0 (fun _ => C0) = (fun _ : nat => C0)) by (apply functional_extensionality; intro; unfold lin; ring).
  rewrite E, H in L. assert (Inj : forall a b : vec, Some a = Some b -> a = b) by (intros a b K; congruence). apply Inj in L. rewrite L. unfold lin. ring.
Qed.
Lemma mesh_blocks : forall m back p i j (S : nat -> Prop), wf_mesh m -> (forall nd, In nd (nodes m) -> (S (top nd) <-> S (bottom nd))) ->
  S i -> ~ S j -> matrix m back p i j = Some C0.
Proof.
  intros m back p i j S Hwf Hs Hi Hj. unfold matrix.
  destruct (wf_matrix_total m back p (basis j) Hwf) as [y Hy]. destruct (wf_matrix_total m back p (fun _ => C0) Hwf) as [z Hz].
  rewrite Hy. f_equal. rewrite (mesh_local S m back p p (basis j) (fun _ => C0) y z Hwf Hs) with (i := i); auto.
  - apply (matrix_zero m back p z); [apply Hwf | exact Hz].
  - intros k Hk. unfold basis, delta. destruct (Nat.eqb_spec k j); [subst; contradiction | reflexivity].
Qed.
Lemma mesh_untouched : forall m back p x y i, wf_mesh m -> (forall nd, In nd (nodes m) -> top nd <> i /\ bottom nd <> i) ->
  matrix_fn m back p x = Some y -> y i = (cis (gammas p i) * x i)%C.
Proof.
  intros m back p x y i (Hd & Hr & Hnd & Hcol) Hi Hy. unfold matrix_fn in Hy. destruct (columns m) as [cols |] eqn:Hc; [| discriminate].
  destruct (forallb _ _) eqn:Hok in Hy; [| discriminate].
  assert (Inj : forall a b : vec, Some a = Some b -> a = b) by (intros a b K; congruence). apply Inj in Hy. clear Inj.
  assert (Hn : forall mc, In mc (if back then rev cols else cols) -> ~ In i (rails (triples mc))).
  { intros mc Hmc Hr'. assert (Hmc' : In mc cols) by (destruct back; [apply in_rev; exact Hmc | exact Hmc]).
    destruct (rails_inv _ _ Hr') as (t & b & k & Hin & E). destruct (col_nodes m cols Hnd Hc mc t b k Hmc' Hin) as (nd & N1 & N2 & N3 & _).
    destruct (Hi nd N1). destruct E; congruence. }
  assert (Hf : forall u, fold_left (fun v idx => parallel_transform (mzis m back p) idx v) (map triples (if back then rev cols else cols)) u i = u i).
  { clear Hy. generalize (if back then rev cols else cols) Hn. intros l Hl. induction l as [| mc l IH]; intro u; cbn [map fold_left]; [reflexivity |].
    rewrite IH by (intros mc' K; apply Hl; right; exact K). apply pt_other. apply Hl. left; reflexivity. }
  rewrite <- Hy. destruct back; [rewrite Hf; reflexivity |]. unfold apply_gammas at 1. rewrite Hf. reflexivity.
Qed.

(** ** The order of the node list *)
Lemma zmax_spec : forall l d, (forall x, In x (d :: l) -> (x <= zmax l d)%Z) /\ In (zmax l d) (d :: l).
Proof.
  induction l as [| a l IH]; intro d; cbn [zmax].
  - split; [intros x [-> | []]; lia | left; reflexivity].
  - destruct (IH d) as [A B]. split.
    + intros x [-> | [-> | K]]; [pose proof (A x (or_introl eq_refl)); lia | lia | pose proof (A x (or_intror K)); lia].
    + destruct (Z.max_spec a (zmax l d)) as [[_ ->] | [_ ->]]; [| right; left; reflexivity].
      destruct B as [B | B]; [left; exact B | right; right; exact B].
Qed.
Lemma zmax_perm : forall l l' d d', Permutation l l' -> In d l -> In d' l' -> zmax l d = zmax l' d'.
Proof.
  intros l l' d d' HP Hd Hd'. destruct (zmax_spec l d) as [A B]. destruct (zmax_spec l' d') as [A' B'].
  assert (B1 : In (zmax l d) l) by (destruct B as [<- | B]; assumption). assert (B1' : In (zmax l' d') l') by (destruct B' as [<- | B']; assumption).
  assert (In (zmax l d) l') by (eapply Permutation_in; eassumption).
  assert (In (zmax l' d') l) by (eapply Permutation_in; [apply Permutation_sym; exact HP | assumption]).
  pose proof (A _ (or_intror H0)). pose proof (A' _ (or_intror H)). lia.
Qed.
Lemma perm_filter : forall (A : Type) (f : A -> bool) l l', Permutation l l' -> Permutation (filter f l) (filter f l').
Proof.
  intros A f l l' H. induction H; cbn [filter].
  - constructor.
  - destruct (f x); [constructor |]; assumption.
  - destruct (f x), (f y); try apply Permutation_refl. apply perm_swap.
  - eapply Permutation_trans; eassumption.
Qed.
Lemma repeat_of : forall (A B : Type) (f : A -> B) e l, (forall a, In a l -> f a = e) -> map f l = repeat e (length l).
Proof. induction l as [| a l IH]; intro H; [reflexivity |]. cbn [map repeat length]. rewrite (H a) by (left; reflexivity). f_equal. apply IH. intros; apply H; right; assumption. Qed.
Lemma idx_ok_perm : forall n k i i', Permutation i i' -> idx_ok n k i = idx_ok n k i'.
Proof.
  intros n k i i' H. unfold idx_ok. induction H; cbn [forallb]; [reflexivity | rewrite IHPermutation; reflexivity | | congruence].
  destruct y as [[a b] c], x as [[a' b'] c']. generalize (forallb (fun x => let '(t, b, k0) := x in (Nat.ltb t n && Nat.ltb b n && Nat.ltb k0 k)%bool) l) as z. intro z.
  destruct (Nat.ltb a n), (Nat.ltb b n), (Nat.ltb c k), (Nat.ltb a' n), (Nat.ltb b' n), (Nat.ltb c' k), z; reflexivity.
Qed.
Lemma mk_fields : forall l s m, mk_mesh l s = Some m -> NoDup (map node_id l) ->
  exists nd r, l = nd :: r /\ nodes m = l /\ style m = s /\ n_rails m = n_of nd /\ bs_errors m = map bs_error l /\ losses m = map loss l /\ num_columns m = (zmax (map column l) (column nd) + 1)%Z.
Proof.
  intros [| nd r] s m H Hnd; [discriminate |]. exists nd, r. unfold mk_mesh in H.
  assert (E : forall x y : mesh, Some x = Some y -> x = y) by (intros x y K; congruence). apply E in H. rewrite <- H.
  cbn [nodes style n_rails bs_errors losses num_columns]. rewrite renumber_single by exact Hnd. repeat split; reflexivity.
Qed.
Lemma columns_perm : forall l l' nc s, Permutation l l' -> NoDup (map node_id l) -> forall m m', nodes m = l -> nodes m' = l' ->
  num_columns m = nc -> num_columns m' = nc -> style m = s -> style m' = s ->
  match columns m, columns m' with
  | Some cs, Some cs' => Forall2 (fun a b => Permutation (triples a) (triples b)) cs cs'
  | None, None => True | _, _ => False end.
Proof.
  intros l l' nc s HP Hnd m m' E1 E2 E3 E4 E5 E6. unfold columns. rewrite E1, E2, E3, E4, E5, E6.
  assert (Hnd' : NoDup (map node_id l')) by (eapply Permutation_NoDup; [apply Permutation_map; exact HP | exact Hnd]).
  induction (seq 0 (Z.to_nat nc)) as [| c sq IH]; [constructor |]. cbn [map all_some].
  pose proof (perm_filter _ (fun nd => Z.eqb (column nd) (Z.of_nat c)) l l' HP) as Pf. fold (nodes_in_column l (Z.of_nat c)) in Pf. fold (nodes_in_column l' (Z.of_nat c)) in Pf.
  pose proof (filter_nodup_id (Z.of_nat c) l Hnd) as N1. pose proof (filter_nodup_id (Z.of_nat c) l' Hnd') as N2.
  fold (nodes_in_column l (Z.of_nat c)) in N1. fold (nodes_in_column l' (Z.of_nat c)) in N2.
  set (f := nodes_in_column l (Z.of_nat c)) in *. set (f' := nodes_in_column l' (Z.of_nat c)) in *. clearbody f f'.
  destruct f as [| a f].
  - apply Permutation_nil in Pf. subst f'. exact I.
  - destruct f' as [| a' f']; [apply Permutation_sym, Permutation_nil in Pf; discriminate |].
    destruct (mk_mesh (a :: f) s) as [mc |] eqn:M1; [| discriminate]. destruct (mk_mesh (a' :: f') s) as [mc' |] eqn:M2; [| discriminate].
    assert (T : Permutation (triples mc) (triples mc')).
    { rewrite (mk_mesh_triples _ _ _ M1), (mk_mesh_triples _ _ _ M2), !renumber_single by assumption. apply Permutation_map. exact Pf. }
    destruct (all_some (map (fun c => mk_mesh (nodes_in_column l (Z.of_nat c)) s) sq)); destruct (all_some (map (fun c => mk_mesh (nodes_in_column l' (Z.of_nat c)) s) sq)); auto.
Qed.
Lemma mesh_listing : forall l l' s m m' n e ls back p x, Permutation l l' -> NoDup (map node_id l) -> rails_disjoint l ->
  (forall nd, In nd l -> n_of nd = n /\ bs_error nd = e /\ loss nd = ls) ->
  mk_mesh l s = Some m -> mk_mesh l' s = Some m' -> matrix_fn m back p x = matrix_fn m' back p x.
Proof.
  intros l l' s m m' n e ls back p x HP Hnd Hd Hu Hm Hm'.
  assert (Hnd' : NoDup (map node_id l')) by (eapply Permutation_NoDup; [apply Permutation_map; exact HP | exact Hnd]).
  assert (Hu' : forall nd, In nd l' -> n_of nd = n /\ bs_error nd = e /\ loss nd = ls) by (intros nd K; apply Hu; eapply Permutation_in; [apply Permutation_sym; exact HP | exact K]).
  destruct (mk_fields l s m Hm Hnd) as (a & r & El & N1 & S1 & R1 & B1 & L1 & C1').
  destruct (mk_fields l' s m' Hm' Hnd') as (a' & r' & El' & N2 & S2 & R2 & B2 & L2 & C2').
  assert (Ia : In a l) by (rewrite El; left; reflexivity). assert (Ia' : In a' l') by (rewrite El'; left; reflexivity).
  assert (ER : n_rails m = n_rails m') by (rewrite R1, R2, (proj1 (Hu a Ia)), (proj1 (Hu' a' Ia')); reflexivity).
  assert (EB : bs_errors m = bs_errors m').
  { rewrite B1, B2, (repeat_of _ _ bs_error e l), (repeat_of _ _ bs_error e l'), (Permutation_length HP); auto; intros nd K; [apply Hu' | apply Hu]; exact K. }
  assert (EL : losses m = losses m').
  { rewrite L1, L2, (repeat_of _ _ loss ls l), (repeat_of _ _ loss ls l'), (Permutation_length HP); auto; intros nd K; [apply Hu' | apply Hu]; exact K. }
  assert (EC : num_columns m' = num_columns m).
  { rewrite C1', C2'. f_equal. symmetry. apply zmax_perm; [apply Permutation_map; exact HP | apply in_map; exact Ia | apply in_map; exact Ia']. }
  pose proof (columns_perm l l' _ s HP Hnd m m' N1 N2 eq_refl EC S1 S2) as K.
  unfold matrix_fn. destruct (columns m) as [cs |] eqn:Hc; destruct (columns m') as [cs' |]; try contradiction; [| reflexivity].
  assert (EM : mzis m back p = mzis m' back p).
  { apply functional_extensionality; intro k. unfold mzis, err_at, loss_at. rewrite S1, S2, EB, EL. reflexivity. }
  rewrite <- EM, <- ER, <- EB.
  assert (K2 : Forall2 (fun i i' => Permutation i i') (map triples (if back then rev cs else cs)) (map triples (if back then rev cs' else cs'))).
  { assert (K3 : Forall2 (fun a b => Permutation (triples a) (triples b)) (if back then rev cs else cs) (if back then rev cs' else cs')).
    { destruct back; [| exact K]. clear - K. induction K; cbn [rev]; [constructor |]. apply Forall2_app; [assumption | constructor; [assumption | constructor]]. }
    clear - K3. induction K3; cbn [map]; constructor; assumption. }
  assert (Hd' : rails_disjoint (nodes m)) by (rewrite N1; exact Hd).
  pose proof (mesh_idxs_nodup m back cs Hd' Hc) as ND. unfold mesh_idxs in ND.
  assert (Eok : forallb (idx_ok (n_rails m) (length (bs_errors m))) (map triples (if back then rev cs else cs)) = forallb (idx_ok (n_rails m) (length (bs_errors m))) (map triples (if back then rev cs' else cs'))).
  { clear - K2. induction K2; cbn [forallb]; [reflexivity |]. rewrite IHK2, (idx_ok_perm _ _ _ _ H). reflexivity. }
  rewrite <- Eok. destruct (forallb _ _); [| reflexivity].
  assert (Ef : forall u, fold_left (fun v idx => parallel_transform (mzis m back p) idx v) (map triples (if back then rev cs else cs)) u =
                         fold_left (fun v idx => parallel_transform (mzis m back p) idx v) (map triples (if back then rev cs' else cs')) u).
  { clear - K2 ND. revert ND. induction K2; intros ND u; [reflexivity |]. inversion ND; subst. cbn [fold_left].
    rewrite (parallel_transform_perm _ x y u H) by (auto; eapply rails_nodup_perm; eassumption). apply IHK2. assumption. }
  rewrite Ef. reflexivity.
Qed.

(** The splitter errors and losses are looked up by list position: two nodes with different errors, listed the other way round. *)
Definition pair_a : node := mkNode 0 (0, 0) (0, 0) 4 0 1 1 1 0.
Definition pair_b : node := mkNode 1 (0, 0) (PI / 4, PI / 4) 4 2 3 1 1 0.
Definition pair_mesh (l : list node) : mesh := mkMesh l TOP (map node_id l) 4 (map bs_error l) (map loss l) (map column l) 1.
Lemma pair_made : mk_mesh [pair_a; pair_b] TOP = Some (pair_mesh [pair_a; pair_b]) /\ mk_mesh [pair_b; pair_a] TOP = Some (pair_mesh [pair_b; pair_a]).
Proof. split; reflexivity. Qed.
Lemma pair_columns : columns (pair_mesh [pair_a; pair_b]) = Some [pair_mesh [pair_a; pair_b]] /\ columns (pair_mesh [pair_b; pair_a]) = Some [pair_mesh [pair_b; pair_a]].
Proof. split; reflexivity. Qed.
Lemma pair_disjoint : rails_disjoint [pair_a; pair_b] /\ rails_disjoint [pair_b; pair_a].
Proof. split; intro c; cbn [filter pair_a pair_b column]; destruct (Z.eqb_spec 0 c); cbn; repeat constructor; simpl; intuition discriminate. Qed.
Lemma pair_wf : forall l, l = [pair_a; pair_b] \/ l = [pair_b; pair_a] -> wf_mesh (pair_mesh l).
Proof.
  intros l Hl. split; [| split; [| split]].
  - destruct pair_disjoint. destruct Hl; subst; assumption.
  - intros nd H. destruct Hl; subst l; destruct H as [<- | [<- | []]]; cbn; lia.
  - destruct Hl; subst l; cbn; repeat constructor; simpl; intuition discriminate.
  - intros c Hc. change (num_columns (pair_mesh l)) with 1%Z in Hc. exists pair_a. destruct Hl; subst l; cbn; (split; [auto | lia]).
Qed.
Lemma sin_quarter : sin (PI / 4 + PI / 4) = 1 /\ cos (PI / 4 + PI / 4) = 0.
Proof. replace (PI / 4 + PI / 4) with (PI / 2) by field. split; [apply sin_PI2 | apply cos_PI2]. Qed.
Lemma listing_refuted : exists l l' m m' p, Permutation l l' /\ mk_mesh l TOP = Some m /\ mk_mesh l' TOP = Some m' /\ wf_mesh m /\ wf_mesh m' /\ lossless m /\ lossless m' /\
  matrix m false p 0%nat 0%nat <> matrix m' false p 0%nat 0%nat.
Proof.
  exists [pair_a; pair_b], [pair_b; pair_a], (pair_mesh [pair_a; pair_b]), (pair_mesh [pair_b; pair_a]), (pconst 0 0).
  split; [apply perm_swap |]. split; [apply pair_made |]. split; [apply pair_made |]. split; [apply pair_wf; auto |]. split; [apply pair_wf; auto |].
  split; [repeat constructor |]. split; [repeat constructor |].
  assert (Q0 : forall e, t11 (parallel_mzi TOP false 0 0 (e, e) (0, 0)) = RtoC (cos (PI / 4 + e) * cos (PI / 4 + e) - sin (PI / 4 + e) * sin (PI / 4 + e))).
  { intro e. unfold parallel_mzi, mzi_terms. cbn [fst snd t11]. replace (ln 10 * 0 / 20) with 0 by field. rewrite Cexp_0 by reflexivity. apply C_eq; cbn [re im RtoC Cadd Cmul C1]; ring. }
  unfold matrix. destruct (wf_matrix_total (pair_mesh [pair_a; pair_b]) false (pconst 0 0) (basis 0) (pair_wf _ (or_introl eq_refl))) as [y Hy].
  destruct (wf_matrix_total (pair_mesh [pair_b; pair_a]) false (pconst 0 0) (basis 0) (pair_wf _ (or_intror eq_refl))) as [z Hz]. rewrite Hy, Hz.
  destruct (matrix_fn_run _ _ _ _ _ (proj1 (pair_wf _ (or_introl eq_refl))) Hy) as (c1 & Hc1 & _ & E1).
  destruct (matrix_fn_run _ _ _ _ _ (proj1 (pair_wf _ (or_intror eq_refl))) Hz) as (c2 & Hc2 & _ & E2).
  rewrite (proj1 pair_columns) in Hc1. rewrite (proj2 pair_columns) in Hc2.
  assert (Inj : forall a b : list mesh, Some a = Some b -> a = b) by (intros a b K; congruence). apply Inj in Hc1, Hc2. subst c1 c2.
  rewrite gammas0 in E1, E2. unfold mesh_ops, mesh_idxs in E1, E2. cbn [map concat] in E1, E2. rewrite app_nil_r in E1, E2.
  change (triples (pair_mesh [pair_a; pair_b])) with [(0, 1, 0); (2, 3, 1)]%nat in E1. change (triples (pair_mesh [pair_b; pair_a])) with [(2, 3, 1); (0, 1, 0)]%nat in E2.
  cbn [ops_of map] in E1, E2. rewrite !run_cons in E1, E2. cbn [run fold_left] in E1, E2.
  assert (Y0 : y 0%nat = t11 (parallel_mzi TOP false 0 0 (0, 0) (0, 0))).
  { rewrite E1, apply_op_other, apply_op_top by lia. unfold qtop, basis, delta. cbn [Nat.eqb]. unfold mzis, err_at, loss_at. cbn [style pair_mesh bs_errors losses map nth bs_error loss pair_a pair_b thetas phis pconst]. ring. }
  assert (Z0 : z 0%nat = t11 (parallel_mzi TOP false 0 0 (PI / 4, PI / 4) (0, 0))).
  { rewrite E2, apply_op_top by lia. rewrite !apply_op_other by lia. unfold qtop, basis, delta. cbn [Nat.eqb]. unfold mzis, err_at, loss_at. cbn [style pair_mesh bs_errors losses map nth bs_error loss pair_a pair_b thetas phis pconst]. ring. }
  rewrite Y0, Z0, !Q0. destruct sin_quarter as [-> ->]. rewrite Rplus_0_r, sin_PI4, cos_PI4. intro H.
  assert (H' : forall a b : C, Some a = Some b -> a = b) by (intros a b K; congruence). apply H' in H. apply RtoC_inj in H. lra.
Qed.
