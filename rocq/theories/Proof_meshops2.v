(** column_ordered, offset, effects of aggregate, error variance, psvd, parameter arrays. *)
From Coq Require Import Reals Lra Lia List ZArith Permutation Bool FunctionalExtensionality Sorting.
From Verif Require Import Cx Arr Spec_circuit Model_coupling Model_forward Model_rect Model_vector Model_meshops Spec_mesh Spec_meshops
  Proof_node Proof_mesh Proof_forward Proof_forward2 Proof_forward4 Proof_tree Proof_tree2 Proof_rect5 Proof_rect6 Proof_nbasis Proof_nbasis4 Proof_columns Proof_meshops.
Import ListNotations.
Local Open Scope nat_scope.

Lemma nic_nic : forall l c c', nodes_in_column (nodes_in_column l c) c' = if (c =? c')%Z then nodes_in_column l c else [].
Proof.
  intros l c c'. destruct (Z.eqb_spec c c') as [<- | N].
  - unfold nodes_in_column. induction l as [| a l IH]; [reflexivity |]. cbn [filter]. destruct (column a =? c)%Z eqn:E; [cbn [filter]; rewrite E, IH; reflexivity | exact IH].
  - apply nic_none. intros nd H. apply filter_In in H. destruct H as [_ H]. apply Z.eqb_eq in H. congruence.
Qed.
Lemma nic_concat : forall l k z c, nodes_in_column (concat (map (fun c => nodes_in_column l (Z.of_nat c)) (seq z k))) (Z.of_nat c) =
  if (z <=? c) && (c <? z + k) then nodes_in_column l (Z.of_nat c) else [].
Proof.
  intros l; induction k as [| k IH]; intros z c.
  - cbn [seq map concat]. destruct (Nat.leb_spec z c), (Nat.ltb_spec c (z + 0)); try lia; reflexivity.
  - cbn [seq map concat]. rewrite nic_app, nic_nic, IH.
    destruct (Z.eqb_spec (Z.of_nat z) (Z.of_nat c)) as [E | E], (Nat.leb_spec (S z) c), (Nat.ltb_spec c (S z + k)), (Nat.leb_spec z c), (Nat.ltb_spec c (z + S k));
      cbn [andb]; try lia; rewrite ?app_nil_r; try reflexivity. do 2 f_equal. lia.
Qed.
Lemma map_column_nic : forall l c, map column (nodes_in_column l c) = repeat c (length (nodes_in_column l c)).
Proof.
  induction l as [| a l IH]; intros c; [reflexivity |]. unfold nodes_in_column in *. cbn [filter]. destruct (Z.eqb_spec (column a) c); [| apply IH].
  cbn [map length repeat]. rewrite IH. congruence.
Qed.
Lemma sorted_app : forall l1 l2 : list Z, StronglySorted Z.le l1 -> StronglySorted Z.le l2 -> (forall x y, In x l1 -> In y l2 -> (x <= y)%Z) -> StronglySorted Z.le (l1 ++ l2).
Proof.
  induction l1 as [| a l1 IH]; intros l2 S1 S2 H; [exact S2 |]. cbn. inversion S1; subst. constructor.
  - apply IH; auto. intros; apply H; [right |]; auto.
  - apply Forall_forall. intros y Hy. apply in_app_or in Hy. destruct Hy as [Hy | Hy]; [rewrite Forall_forall in H3; auto | apply H; [left; reflexivity | auto]].
Qed.
Lemma byc_sorted : forall l k z, StronglySorted Z.le (map column (concat (map (fun c => nodes_in_column l (Z.of_nat c)) (seq z k)))).
Proof.
  intros l; induction k as [| k IH]; intros z; [constructor |]. cbn [seq map concat]. rewrite map_app. apply sorted_app; [| apply IH |].
  - rewrite map_column_nic. induction (length _) as [| q IQ]; constructor; auto. apply Forall_forall. intros x Hx. apply repeat_spec in Hx. lia.
  - intros x y Hx Hy. rewrite map_column_nic in Hx. apply repeat_spec in Hx. apply in_map_iff in Hy. destruct Hy as (nd & <- & Hd).
    apply in_concat in Hd. destruct Hd as (q & Hq & Hd). apply in_map_iff in Hq. destruct Hq as (c & <- & Hc). apply in_seq in Hc.
    apply filter_In in Hd. destruct Hd as [_ Hd]. apply Z.eqb_eq in Hd. lia.
Qed.

Lemma book_of : forall m, wf_mesh m -> fresh m -> book_ok m.
Proof. intros m (D & Hr & Hi & Hc) (EB & EL & Rg & P). constructor; [exact Hi | intros nd H; apply Rg; exact H | exact Hc]. Qed.

Lemma column_ordered_ok : forall m, wf_mesh m -> fresh m -> exists mo, column_ordered m = Some mo /\
  Permutation (nodes mo) (nodes m) /\ StronglySorted Z.le (map column (nodes mo)) /\ style mo = TOP /\ wf_mesh mo /\ fresh mo /\
  num_columns mo = num_columns m /\ column_ordered mo = Some mo /\
  (uniform_errors m -> forall back p x, matrix_fn mo back p x = matrix_fn (restyled m TOP) back p x).
Proof.
  intros m W F. pose proof W as (D & Hr & Hi & Hc). pose proof F as (EB & EL & Rg & P).
  destruct (columns_partition m (book_of m W F)) as (cols & E1 & _ & _ & Pm). destruct (columns_total m (book_of m W F)) as (cols' & E1' & E2).
  assert (cols' = cols) by congruence. subst cols'. rewrite E2 in Pm.
  set (l := concat (byc m)) in *.
  assert (Il : NoDup (map node_id l)) by (apply (Permutation_NoDup (l := map node_id (nodes m))); [apply Permutation_map, Permutation_sym; exact Pm | exact Hi]).
  assert (InE : forall nd, In nd l <-> In nd (nodes m)) by (intros nd; split; apply Permutation_in; [| apply Permutation_sym]; exact Pm).
  assert (Hne : l <> []) by (destruct (Hc 0%Z ltac:(lia)) as (nd & H & _); intros E; apply InE in H; rewrite E in H; destruct H).
  destruct (mk_build l TOP (n_rails m) (num_columns m) Hne Il) as (mo & E & EN & ES & ER & EB' & EL' & EC).
  { intros nd H. apply Rg, InE. exact H. }
  { destruct (Hc (num_columns m - 1)%Z ltac:(lia)) as (nd & H & K). exists nd. split; [apply InE; exact H | exact K]. }
  assert (NIC : forall c, c < Z.to_nat (num_columns m) -> nodes_in_column l (Z.of_nat c) = nodes_in_column (nodes m) (Z.of_nat c)).
  { intros c Hc0. unfold l, byc. rewrite nic_concat. destruct (Nat.leb_spec 0 c), (Nat.ltb_spec c (0 + Z.to_nat (num_columns m))); try lia. reflexivity. }
  assert (BY : byc mo = byc m).
  { unfold byc. rewrite EC, EN. apply map_ext_in. intros c Hc0. apply in_seq in Hc0. apply NIC. lia. }
  assert (Wo : wf_mesh mo).
  { split; [| split; [| split]].
    - rewrite EN. intros c. cbv zeta. change (NoDup (map top (nodes_in_column l c) ++ map bottom (nodes_in_column l c))).
      destruct (Z.le_gt_cases 0 c) as [L1 | L1]; [destruct (Z.lt_ge_cases c (num_columns m)) as [L2 | L2] |].
      + replace c with (Z.of_nat (Z.to_nat c)) by lia. rewrite NIC by lia. exact (D _).
      + rewrite nic_none; [constructor |]. intros nd H. apply InE in H. destruct (Rg nd H). lia.
      + rewrite nic_none; [constructor |]. intros nd H. apply InE in H. destruct (Rg nd H). lia.
    - intros nd H. rewrite EN in H. apply InE in H. destruct (Hr nd H) as (? & ? & ?). rewrite ER, EB', map_length. rewrite EB, map_length in *.
      rewrite (Permutation_length Pm). auto.
    - rewrite EN. exact Il.
    - rewrite EC, EN. intros c H. destruct (Hc c H) as (nd & ? & ?). exists nd. split; [apply InE |]; assumption. }
  assert (Fo : fresh mo).
  { split; [rewrite EN; exact EB' |]. split; [rewrite EN; exact EL' |]. split; [| rewrite EC; exact P]. rewrite EN, EC, ER. intros nd H. apply Rg, InE. exact H. }
  assert (CO : column_ordered m = Some mo).
  { unfold column_ordered. rewrite E1. cbn [obind]. unfold aggregate. rewrite E2. fold l. exact E. }
  exists mo. split; [exact CO |]. split; [rewrite EN; exact Pm |]. split; [rewrite EN; apply byc_sorted |]. split; [exact ES |]. split; [exact Wo |].
  split; [exact Fo |]. split; [exact EC |]. split.
  - unfold column_ordered. destruct (columns_total mo (book_of mo Wo Fo)) as (co & C1 & C2). rewrite C1. cbn [obind]. unfold aggregate. rewrite C2, BY. fold l. exact E.
  - intros (e & lo & U) back p x.
    assert (Wt : wf_mesh (restyled m TOP)) by exact W.
    rewrite !matrix_both by assumption.
    assert (A : all_idx mo = all_idx (restyled m TOP)).
    { unfold all_idx, col_idx. cbn [restyled nodes num_columns]. rewrite EC, EN. apply map_ext_in. intros c Hc0. apply in_seq in Hc0. rewrite NIC by lia. reflexivity. }
    assert (Mz : forall k, k < length (nodes m) -> mzis mo back p k = mzis (restyled m TOP) back p k).
    { intros k Hk. unfold mzis, err_at, loss_at. cbn [restyled style bs_errors losses]. rewrite ES, EB', EL', EB, EL.
      assert (X : forall ll, length ll = length (nodes m) -> (forall nd, In nd ll -> In nd (nodes m)) -> nth k (map bs_error ll) (0%R, 0%R) = e /\ nth k (map loss ll) (0%R, 0%R) = lo).
      { intros ll L S. assert (Hin : In (nth k ll (mkNode 0 (0%R,0%R) (0%R,0%R) 0 0 0 0 0 0)) ll) by (apply nth_In; lia). apply S, U in Hin. destruct Hin as [U1 U2].
        split; [rewrite (nth_indep _ _ (bs_error (mkNode 0 (0%R,0%R) (0%R,0%R) 0 0 0 0 0 0))) by (rewrite map_length; lia); rewrite map_nth; exact U1
               | rewrite (nth_indep _ _ (loss (mkNode 0 (0%R,0%R) (0%R,0%R) 0 0 0 0 0 0))) by (rewrite map_length; lia); rewrite map_nth; exact U2]. }
      destruct (X l (Permutation_length Pm) (fun nd H => proj1 (InE nd) H)) as [-> ->]. destruct (X (nodes m) eq_refl (fun nd H => H)) as [-> ->]. reflexivity. }
    assert (IA : forall i t b0 k, In i (all_idx (restyled m TOP)) -> In (t, b0, k) i -> k < length (nodes m)).
    { intros i t b0 k Hi0 Hin. unfold all_idx in Hi0. apply in_map_iff in Hi0. destruct Hi0 as (c & <- & _). unfold col_idx in Hin. apply in_map_iff in Hin.
      destruct Hin as (nd & Et & Hd). apply filter_In in Hd. destruct Hd as [Hd _]. destruct (Hr nd Hd) as (_ & _ & K). rewrite EB, map_length in K. unfold tri in Et. congruence. }
    rewrite A. destruct back.
    + rewrite (cols_run_ext _ (mzis (restyled m TOP) true p)); [reflexivity |]. intros i t b0 k Hi0 Hin. apply Mz. eapply IA; [apply in_rev; exact Hi0 | exact Hin].
    + rewrite (cols_run_ext _ (mzis (restyled m TOP) false p)); [reflexivity |]. intros i t b0 k Hi0 Hin. apply Mz. eapply IA; eassumption.
Qed.

(** ** Two nodes listed against the light: column_ordered moves the error. *)
Definition nB (e : R * R) : node := mkNode 0 (0%R, 0%R) e 3 1 2 1 1 1.
Definition nA : node := mkNode 1 (0%R, 0%R) (0%R, 0%R) 3 0 1 1 1 0.
Definition two (b : bool) (e : R * R) : mesh :=
  if b then mkMesh [nB e; nA] TOP [0; 1] 3 [e; (0%R, 0%R)] [(0%R, 0%R); (0%R, 0%R)] [1%Z; 0%Z] 2
  else mkMesh [nA; nB e] TOP [1; 0] 3 [(0%R, 0%R); e] [(0%R, 0%R); (0%R, 0%R)] [0%Z; 1%Z] 2.
Lemma two_made : forall e, mk_mesh [nB e; nA] TOP = Some (two true e). Proof. reflexivity. Qed.
Lemma two_ordered : forall e, column_ordered (two true e) = Some (two false e). Proof. reflexivity. Qed.
Lemma two_entry : forall b e, matrix (two b e) false (pconst 0 0) 0 0 = Some (RtoC (if b then 0 else - sin (fst e + snd e))).
Proof.
  intros b e. unfold matrix, matrix_fn.
  assert (C : exists c0 c1, columns (two b e) = Some [c0; c1] /\ triples c0 = [(0, 1, 1)] /\ triples c1 = [(1, 2, 0)]) by (destruct b; do 2 eexists; repeat split; reflexivity).
  destruct C as (c0 & c1 & -> & E0 & E1). cbn [map]. rewrite E0, E1.
  replace (n_rails (two b e)) with 3 by (destruct b; reflexivity). replace (length (bs_errors (two b e))) with 2 by (destruct b; reflexivity).
  change (forallb (idx_ok 3 2) [[(0, 1, 1)]; [(1, 2, 0)]]) with true. cbv iota. cbn [fold_left]. rewrite gammas0. f_equal.
  rewrite pt_other by (simpl; intuition discriminate).
  rewrite (pt_top _ _ _ 0 1 1); [| simpl; repeat constructor; simpl; intuition discriminate | left; auto].
  unfold basis, delta. cbn [Nat.eqb]. set (er := if b then (0%R, 0%R) else e).
  replace (mzis (two b e) false (pconst 0 0) 1) with (parallel_mzi TOP false 0 0 er (0%R, 0%R)) by (destruct b; reflexivity).
  replace (if b then 0%R else (- sin (fst e + snd e))%R) with (- sin (fst er + snd er))%R by (destruct b; cbn; rewrite ?Rplus_0_r, ?sin_0; try lra; reflexivity).
  clearbody er. cbn [parallel_mzi mzi_terms t11 t21 fst snd].
  replace (ln 10 * 0 / 20)%R with 0%R by field. rewrite !Cexp_imag, !cis_0.
  assert (E : (- (sin (PI / 4 + snd er) * sin (PI / 4 + fst er)) + cos (PI / 4 + snd er) * cos (PI / 4 + fst er) = - sin (fst er + snd er))%R).
  { transitivity (cos ((PI / 4 + snd er) + (PI / 4 + fst er))); [rewrite (cos_plus (PI / 4 + snd er) (PI / 4 + fst er)); ring |].
    replace (PI / 4 + snd er + (PI / 4 + fst er))%R with ((fst er + snd er) + PI / 2)%R by field.
    rewrite (cos_plus (fst er + snd er)), cos_PI2, sin_PI2. ring. }
  rewrite <- E. unfold qtop. ceq.
Qed.
Lemma ordered_moves_error : exists l m mo, mk_mesh l TOP = Some m /\ map node_id (nodes m) = seq 0 (length l) /\
  column_ordered m = Some mo /\ matrix mo false (pconst 0 0) 0 0 <> matrix m false (pconst 0 0) 0 0.
Proof.
  exists [nB (PI/12, PI/12)%R; nA], (two true (PI/12, PI/12)%R), (two false (PI/12, PI/12)%R). split; [apply two_made |]. split; [reflexivity |]. split; [apply two_ordered |].
  rewrite !two_entry. intro H. apply Some_inj in H. apply RtoC_inj in H. cbn [fst snd] in H.
  replace (PI/12 + PI/12)%R with (PI/6)%R in H by field. rewrite sin_PI6 in H. lra.
Qed.

(** ** offset and the arguments of aggregate *)
Lemma offset_raises : forall m k p back x, wf_mesh m -> 0 < k -> (exists nd, In nd (nodes m) /\ (0 <= column nd < num_columns m)%Z /\ length (bs_errors m) <= node_id nd + k) ->
  matrix_fn (offset m k) back p x = None.
Proof.
  intros m k p back x (D & Hr & Hi & Hc) Hk (w & Hw & Hcw & Lw).
  assert (Ho : NoDup (map node_id (nodes (offset m k)))).
  { cbn [offset nodes]. rewrite map_map. rewrite (map_ext (fun x => node_id (with_id x (node_id x + k))) (fun x => node_id x + k)) by reflexivity.
    rewrite <- (map_map node_id (fun q => q + k)). apply FinFun.Injective_map_NoDup; [intros a b; lia | exact Hi]. }
  unfold matrix_fn. destruct (columns (offset m k)) as [cols |] eqn:E; [| reflexivity]. cbv zeta.
  destruct (cols_struct (offset m k) cols Ho E) as (L1 & L2 & _).
  assert (X : forallb (idx_ok (n_rails m) (length (bs_errors m))) (all_idx (offset m k)) = false).
  { destruct (forallb _ _) eqn:Y; [| reflexivity]. exfalso. rewrite forallb_forall in Y.
    assert (In (col_idx (offset m k) (Z.to_nat (column w))) (all_idx (offset m k))) as K.
    { unfold all_idx. apply in_map, in_seq. cbn [offset num_columns]. lia. }
    apply Y in K. unfold idx_ok in K. rewrite forallb_forall in K. specialize (K (top w, bottom w, node_id w + k)).
    assert (In (top w, bottom w, node_id w + k) (col_idx (offset m k) (Z.to_nat (column w)))) as Q.
    { unfold col_idx. apply in_map_iff. exists (with_id w (node_id w + k)). split; [reflexivity |]. apply filter_In. split; [cbn [offset nodes]; apply in_map_iff; exists w; auto |].
      cbn. apply Z.eqb_eq. lia. }
    apply K in Q. apply andb_prop in Q. destruct Q as [_ Q]. apply Nat.ltb_lt in Q. lia. }
  cbn [offset n_rails bs_errors] in *. destruct back.
  - rewrite map_rev, L2. destruct (forallb _ (rev _)) eqn:Y; [| reflexivity]. exfalso.
    apply forallb_rev in Y. rewrite rev_involutive in Y. congruence.
  - rewrite L2, X. reflexivity.
Qed.

Lemma set_nodes_id : forall m, set_nodes m (nodes m) = m. Proof. intros []; reflexivity. Qed.
Lemma reassign_same : forall ms, reassign ms (concat (map nodes ms)) = ms.
Proof.
  induction ms as [| m r IH]; [reflexivity |]. cbn [map concat reassign].
  rewrite firstn_app, Nat.sub_diag, firstn_all, firstn_O, app_nil_r, skipn_app, Nat.sub_diag, skipn_all, skipn_O. cbn [List.app].
  rewrite IH, set_nodes_id. reflexivity.
Qed.
Lemma sum_zero : forall l, fold_right Nat.add 0 l = 0 <-> forall x, In x l -> x = 0.
Proof.
  induction l as [| a l IH]; cbn; [split; [intros _ x [] | reflexivity] |]. split.
  - intros H x [<- | Hx]; [lia | apply IH; [lia | exact Hx]].
  - intros H. rewrite (H a) by auto. cbn. apply IH. auto.
Qed.
Lemma effect_none : forall ms, (exists m nd, In m ms /\ In nd (nodes m) /\ node_id nd <> 0) -> aggregate_effect ms = ms.
Proof.
  intros ms (m & nd & Hm & Hn & Hid). unfold aggregate_effect, renumber.
  destruct (Nat.eqb_spec (fold_right Nat.add 0 (map node_id (concat (map nodes ms)))) 0) as [E | E]; [| apply reassign_same].
  exfalso. rewrite sum_zero in E. apply Hid, E. apply in_map, in_concat. exists (nodes m). split; [apply in_map; exact Hm | exact Hn].
Qed.
Lemma renumber_go : forall ms z, (forall m, In m ms -> exists nd, nodes m = [nd] /\ node_id nd = 0) ->
  reassign ms (map (fun p => with_id (snd p) (fst p)) (combine (seq z (length (concat (map nodes ms)))) (concat (map nodes ms)))) =
  map (fun jm => offset (snd jm) (fst jm)) (combine (seq z (length ms)) ms).
Proof.
  induction ms as [| m r IH]; intros z H; [reflexivity |]. destruct (H m ltac:(left; reflexivity)) as (nd & En & Ei).
  cbn [map concat]. rewrite En. cbn [List.app length seq combine map reassign fst snd]. rewrite En. cbn [length firstn skipn]. f_equal.
  - unfold set_nodes, offset. rewrite En. cbn [map]. rewrite Ei. reflexivity.
  - apply IH. intros; apply H; right; assumption.
Qed.
Lemma effect_singles : forall ms, (forall m, In m ms -> exists nd, nodes m = [nd] /\ node_id nd = 0) ->
  aggregate_effect ms = map (fun jm => offset (snd jm) (fst jm)) (combine (seq 0 (length ms)) ms).
Proof.
  intros ms H. unfold aggregate_effect, renumber.
  destruct (Nat.eqb_spec (fold_right Nat.add 0 (map node_id (concat (map nodes ms)))) 0) as [E | E]; [apply renumber_go; exact H |].
  exfalso. apply E. apply sum_zero. intros x Hx. apply in_map_iff in Hx. destruct Hx as (nd & <- & Hd). apply in_concat in Hd. destruct Hd as (l & Hl & Hd).
  apply in_map_iff in Hl. destruct Hl as (m & <- & Hm). destruct (H m Hm) as (nd' & En & Ei). rewrite En in Hd. destruct Hd as [<- | []]. exact Ei.
Qed.
Lemma aggregate_breaks : forall ms j m, (forall m, In m ms -> wf_mesh m /\ fresh m /\ exists nd, nodes m = [nd] /\ node_id nd = 0) ->
  0 < j -> nth_error (aggregate_effect ms) j = Some m ->
  exists m0, nth_error ms j = Some m0 /\ (forall back p x, matrix_fn m0 back p x <> None) /\ forall back p x, matrix_fn m back p x = None.
Proof.
  intros ms j m H Hj E. rewrite effect_singles in E by (intros; apply H; assumption).
  assert (G : forall z ms, nth_error (map (fun jm => offset (snd jm) (fst jm)) (combine (seq z (length ms)) ms)) j = Some m -> exists m0, nth_error ms j = Some m0 /\ m = offset m0 (z + j)).
  { clear. induction j as [| j IH]; intros z [| a ms] E; try discriminate E; cbn [length seq combine map nth_error] in *.
    - exists a. split; [reflexivity |]. cbn in E. rewrite Nat.add_0_r. congruence.
    - destruct (IH (S z) ms E) as (m0 & ? & ?). exists m0. split; [assumption |]. replace (z + S j) with (S z + j) by lia. assumption. }
  destruct (G 0 ms E) as (m0 & E0 & ->). exists m0. split; [exact E0 |]. destruct (H m0 (nth_error_In _ _ E0)) as (W & F & nd & En & Ei).
  split; [intros back p x; rewrite matrix_both by exact W; discriminate |]. intros back p x. apply offset_raises; [exact W | lia |].
  exists nd. pose proof F as (EB & _ & Rg & _). split; [rewrite En; left; reflexivity |]. split; [apply Rg; rewrite En; left; reflexivity |].
  rewrite EB, En. cbn. lia.
Qed.

(** ** add_error_variance *)
Lemma combine_err : forall (l : list node) (f g : nat -> R * R) z,
  map (fun x => let '(nd, (e, lo)) := x in with_errors nd e lo) (combine l (combine (map f (seq z (length l))) (map g (seq z (length l))))) =
  map (fun x => with_errors (snd x) (f (fst x)) (g (fst x))) (combine (seq z (length l)) l).
Proof. induction l as [| a l IH]; intros f g z; [reflexivity |]. cbn [length seq map combine fst snd]. rewrite IH. reflexivity. Qed.
Lemma nth_error_ix : forall (A : Type) (l : list A) z i x, nth_error l i = Some x -> nth_error (combine (seq z (length l)) l) i = Some (z + i, x).
Proof.
  induction l as [| a l IH]; intros z i x H; [destruct i; discriminate |]. destruct i as [| i]; cbn [length seq combine nth_error] in *.
  - rewrite Nat.add_0_r. congruence.
  - rewrite (IH (S z) i x H). do 2 f_equal. lia.
Qed.
Lemma map_ix : forall (A B : Type) (f : A -> B) l z, map (fun x : nat * A => f (snd x)) (combine (seq z (length l)) l) = map f l.
Proof. induction l as [| a l IH]; intros z; [reflexivity |]. cbn [length seq combine map snd]. rewrite IH. reflexivity. Qed.
Lemma rewire : forall m l', wf_mesh m -> fresh m -> map (fun nd => (node_id nd, top nd, bottom nd, column nd, n_of nd)) l' = map (fun nd => (node_id nd, top nd, bottom nd, column nd, n_of nd)) (nodes m) ->
  exists m', mk_mesh l' (style m) = Some m' /\ nodes m' = l' /\ wf_mesh m' /\ fresh m' /\ style m' = style m /\ n_rails m' = n_rails m /\ num_columns m' = num_columns m.
Proof.
  intros m l' W F E. pose proof W as (D & Hr & Hi & Hc). pose proof F as (EB & EL & Rg & P).
  assert (L : length l' = length (nodes m)) by (rewrite <- (map_length (fun nd => (node_id nd, top nd, bottom nd, column nd, n_of nd))), E, map_length; reflexivity).
  assert (Pr : forall (B : Type) (f : nat * nat * nat * Z * nat -> B), map (fun nd => f (node_id nd, top nd, bottom nd, column nd, n_of nd)) l' = map (fun nd => f (node_id nd, top nd, bottom nd, column nd, n_of nd)) (nodes m)).
  { intros B f. rewrite <- !(map_map (fun nd => (node_id nd, top nd, bottom nd, column nd, n_of nd)) f), E. reflexivity. }
  assert (Wh : forall nd, In nd l' -> exists nd0, In nd0 (nodes m) /\ (node_id nd0, top nd0, bottom nd0, column nd0, n_of nd0) = (node_id nd, top nd, bottom nd, column nd, n_of nd)).
  { intros nd H. apply (in_map (fun nd => (node_id nd, top nd, bottom nd, column nd, n_of nd))) in H. rewrite E in H. apply in_map_iff in H. destruct H as (x & ? & ?). eauto. }
  assert (Wh' : forall nd, In nd (nodes m) -> exists nd0, In nd0 l' /\ (node_id nd0, top nd0, bottom nd0, column nd0, n_of nd0) = (node_id nd, top nd, bottom nd, column nd, n_of nd)).
  { intros nd H. apply (in_map (fun nd => (node_id nd, top nd, bottom nd, column nd, n_of nd))) in H. rewrite <- E in H. apply in_map_iff in H. destruct H as (x & ? & ?). eauto. }
  assert (NF : forall c, map (fun nd => (node_id nd, top nd, bottom nd, column nd, n_of nd)) (nodes_in_column l' c) = map (fun nd => (node_id nd, top nd, bottom nd, column nd, n_of nd)) (nodes_in_column (nodes m) c)).
  { intros c. clear - E. revert E. generalize (nodes m) as l. revert l'. induction l' as [| a l' IH]; intros [| b l] E; try discriminate E; [reflexivity |].
    cbn [map] in E. unfold nodes_in_column in *. cbn [filter].
    assert (E1 : (node_id a, top a, bottom a, column a, n_of a) = (node_id b, top b, bottom b, column b, n_of b)) by congruence.
    assert (E2 : map (fun nd => (node_id nd, top nd, bottom nd, column nd, n_of nd)) l' = map (fun nd => (node_id nd, top nd, bottom nd, column nd, n_of nd)) l) by congruence.
    assert (E3 : column a = column b) by congruence. rewrite E3. destruct (column b =? c)%Z; cbn [map]; [f_equal; [exact E1 |] |]; apply IH; exact E2. }
  assert (Ii : NoDup (map node_id l')) by (change (map node_id l') with (map (fun nd => (fun q : nat * nat * nat * Z * nat => fst (fst (fst (fst q)))) (node_id nd, top nd, bottom nd, column nd, n_of nd)) l'); rewrite Pr; exact Hi).
  destruct (mk_build l' (style m) (n_rails m) (num_columns m)) as (m' & E1 & EN & ES & ER & EB' & EL' & EC).
  - intros ->. cbn in L. destruct (Hc 0%Z ltac:(lia)) as (nd & H & _). destruct (nodes m); [destruct H | discriminate L].
  - exact Ii.
  - intros nd H. destruct (Wh nd H) as (nd0 & H0 & Q). destruct (Rg nd0 H0). assert (column nd0 = column nd) by congruence. assert (n_of nd0 = n_of nd) by congruence. split; congruence || lia.
  - destruct (Hc (num_columns m - 1)%Z ltac:(lia)) as (nd & H & K). destruct (Wh' nd H) as (nd0 & H0 & Q). exists nd0. split; [exact H0 | congruence].
  - exists m'. split; [exact E1 |]. split; [exact EN |]. split; [| split; [| split; [exact ES | split; [exact ER | exact EC]]]].
    + split; [| split; [| split]].
      * rewrite EN. intros c. cbv zeta. change (NoDup (map top (nodes_in_column l' c) ++ map bottom (nodes_in_column l' c))).
        assert (T : map top (nodes_in_column l' c) = map top (nodes_in_column (nodes m) c)).
        { pose proof (f_equal (map (fun q : nat * nat * nat * Z * nat => snd (fst (fst (fst q))))) (NF c)) as Q. rewrite !map_map in Q. exact Q. }
        assert (Bt : map bottom (nodes_in_column l' c) = map bottom (nodes_in_column (nodes m) c)).
        { pose proof (f_equal (map (fun q : nat * nat * nat * Z * nat => snd (fst (fst q)))) (NF c)) as Q. rewrite !map_map in Q. exact Q. }
        rewrite T, Bt. exact (D c).
      * rewrite EN, ER, EB', map_length, L. intros nd H. destruct (Wh nd H) as (nd0 & H0 & Q). destruct (Hr nd0 H0) as (? & ? & K). rewrite EB, map_length in K.
        assert (top nd0 = top nd) by congruence. assert (bottom nd0 = bottom nd) by congruence. assert (node_id nd0 = node_id nd) by congruence. repeat split; congruence || lia.
      * rewrite EN. exact Ii.
      * rewrite EN, EC. intros c H. destruct (Hc c H) as (nd & Hd & K). destruct (Wh' nd Hd) as (nd0 & H0 & Q). exists nd0. split; [exact H0 | congruence].
    + split; [rewrite EN; exact EB' |]. split; [rewrite EN; exact EL' |]. split; [| rewrite EC; exact P]. rewrite EN, EC, ER.
      intros nd H. destruct (Wh nd H) as (nd0 & H0 & Q). destruct (Rg nd0 H0). assert (column nd0 = column nd) by congruence. assert (n_of nd0 = n_of nd) by congruence. split; congruence || lia.
Qed.

Lemma perturb0 : forall v d, perturb 0 v d = v. Proof. intros [a b] [c d]. unfold perturb. cbn. f_equal; ring. Qed.
Lemma variance_ok : forall m bs ls eq db dl, wf_mesh m -> fresh m -> exists m', add_error_variance m bs ls eq db dl = Some m' /\
  wf_mesh m' /\ fresh m' /\ style m' = style m /\ n_rails m' = n_rails m /\ num_columns m' = num_columns m /\
  (forall i nd, nth_error (nodes m) i = Some nd -> exists nd', nth_error (nodes m') i = Some nd' /\
     (node_id nd', top nd', bottom nd', column nd') = (node_id nd, top nd, bottom nd, column nd) /\
     (bs_error nd' = (fst (bs_error nd) + bs * fst (db i), snd (bs_error nd) + bs * (if eq then fst (db i) else snd (db i))))%R /\
     (loss nd' = (fst (loss nd) + ls * fst (dl i), snd (loss nd) + ls * snd (dl i)))%R) /\
  (eq = true -> equal_errors m -> equal_errors m') /\
  (ls = 0%R -> lossless m -> forall back p x, exists y, matrix_fn m' back p x = Some y /\ power (n_rails m) y = power (n_rails m) x) /\
  (bs = 0%R -> ls = 0%R -> forall back p x, matrix_fn m' back p x = matrix_fn m back p x).
Proof.
  intros m bs ls eq db dl W F. pose proof F as (EB & EL & Rg & P). unfold add_error_variance, add_error_mean. cbv zeta.
  rewrite EB, EL, !map_length. set (d := mkNode 0 (0%R,0%R) (0%R,0%R) 0 0 0 0 0 0).
  set (err := fun i => perturb bs (nth i (map bs_error (nodes m)) (0%R, 0%R)) (if eq then (fst (db i), fst (db i)) else db i)).
  set (lf := fun i => perturb ls (nth i (map loss (nodes m)) (0%R, 0%R)) (dl i)).
  change (map (fun i => perturb bs (nth i (map bs_error (nodes m)) (0%R, 0%R)) (if eq then (fst (db i), fst (db i)) else db i))) with (map err).
  change (map (fun i => perturb ls (nth i (map loss (nodes m)) (0%R, 0%R)) (dl i))) with (map lf).
  rewrite combine_err. set (l' := map _ (combine _ _)).
  destruct (rewire m l' W F) as (m' & E1 & EN & W' & F' & ES & ER & EC).
  { unfold l'. rewrite map_map. rewrite <- (map_ix _ _ (fun nd => (node_id nd, top nd, bottom nd, column nd, n_of nd)) (nodes m) 0). reflexivity. }
  exists m'. split; [exact E1 |]. split; [exact W' |]. split; [exact F' |]. split; [exact ES |]. split; [exact ER |]. split; [exact EC |].
  assert (NE : forall i nd, nth_error (nodes m) i = Some nd -> nth_error (nodes m') i = Some (with_errors nd (err i) (lf i)) /\ nth i (map bs_error (nodes m)) (0%R, 0%R) = bs_error nd /\ nth i (map loss (nodes m)) (0%R, 0%R) = loss nd).
  { intros i nd H. split; [| split].
    - rewrite EN. unfold l'. erewrite map_nth_error by (apply nth_error_ix; exact H). reflexivity.
    - apply nth_error_nth. apply map_nth_error. exact H.
    - apply nth_error_nth. apply map_nth_error. exact H. }
  assert (Inv : forall nd', In nd' (nodes m') -> exists i nd, nth_error (nodes m) i = Some nd /\ nd' = with_errors nd (err i) (lf i)).
  { intros nd' H. apply In_nth_error in H. destruct H as [i H].
    assert (Lt : i < length (nodes m)).
    { assert (i < length (nodes m')) by (apply nth_error_Some; congruence). rewrite EN in H0. unfold l' in H0. rewrite map_length, combine_length, seq_length in H0. lia. }
    destruct (nth_error (nodes m) i) as [nd |] eqn:Q; [| apply nth_error_None in Q; lia]. exists i, nd. split; [exact Q |]. destruct (NE i nd Q) as (K & _). congruence. }
  pose proof F' as (EB' & EL' & _).
  split; [| split; [| split]].
  - intros i nd H. destruct (NE i nd H) as (K1 & K2 & K3). eexists. split; [exact K1 |]. split; [reflexivity |].
    cbn [with_errors bs_error loss]. unfold err, lf, perturb. rewrite K2, K3. destruct eq; split; reflexivity.
  - intros -> H. unfold equal_errors in *. rewrite EB'. apply Forall_forall. intros e He. apply in_map_iff in He. destruct He as (nd' & <- & Hd).
    destruct (Inv nd' Hd) as (i & nd & Q & ->). destruct (NE i nd Q) as (_ & K2 & _). cbn [with_errors bs_error]. unfold err, perturb. rewrite K2. cbn [fst snd].
    rewrite EB in H. rewrite Forall_forall in H. rewrite (H (bs_error nd)); [reflexivity |]. apply in_map. eapply nth_error_In; exact Q.
  - intros -> H back p x. pose proof (matrix_both m' back p x W') as Q. eexists. split; [exact Q |]. rewrite <- ER.
    apply (mesh_power m' back p x); [apply W' | | exact Q]. unfold lossless in *. rewrite EL'. apply Forall_forall. intros e He. apply in_map_iff in He. destruct He as (nd' & <- & Hd).
    destruct (Inv nd' Hd) as (i & nd & Qn & ->). destruct (NE i nd Qn) as (_ & _ & K3). cbn [with_errors loss]. unfold lf. rewrite perturb0, K3.
    rewrite EL in H. rewrite Forall_forall in H. apply H. apply in_map. eapply nth_error_In; exact Qn.
  - intros -> -> back p x.
    assert (NN : nodes m' = nodes m).
    { rewrite EN. unfold l'. transitivity (map (fun x0 : nat * node => (fun z => z) (snd x0)) (combine (seq 0 (length (nodes m))) (nodes m))); [| rewrite (map_ix _ _ (fun z : node => z) (nodes m) 0); apply map_id].
      apply map_ext_in. intros [i nd] Hin. cbn [fst snd].
      assert (Q : nth_error (nodes m) i = Some nd).
      { apply In_nth_error in Hin. destruct Hin as [q Hq]. destruct (nth_error (nodes m) q) as [nd0 |] eqn:Z.
        - rewrite (nth_error_ix _ _ 0 q nd0 Z) in Hq. cbn in Hq. congruence.
        - exfalso. apply nth_error_None in Z. assert (q < length (combine (seq 0 (length (nodes m))) (nodes m))) by (apply nth_error_Some; congruence).
          rewrite combine_length, seq_length in H. lia. }
      destruct (NE i nd Q) as (_ & K2 & K3). unfold err, lf. rewrite !perturb0, K2, K3. destruct nd; reflexivity. }
    rewrite !matrix_both by assumption.
    assert (A : all_idx m' = all_idx m) by (unfold all_idx, col_idx; rewrite EC, NN; reflexivity).
    assert (Mz : mzis m' back p = mzis m back p) by (unfold mzis, err_at, loss_at; rewrite ES, EB', EL', EB, EL, NN; reflexivity).
    rewrite A. destruct back; rewrite Mz; reflexivity.
Qed.
Lemma zmax_ge : forall l d x, In x l -> (x <= zmax l d)%Z.
Proof. induction l as [| a l IH]; intros d x []; cbn [zmax]; [subst; lia | specialize (IH d x H); lia]. Qed.
Lemma renumber_keeps : forall l, map (fun nd => (loss nd, bs_error nd, n_of nd, column nd)) (renumber l) = map (fun nd => (loss nd, bs_error nd, n_of nd, column nd)) l.
Proof.
  intros l. unfold renumber. destruct (Nat.eqb _ _); [| reflexivity]. rewrite map_map.
  exact (map_ix _ _ (fun nd => (loss nd, bs_error nd, n_of nd, column nd)) l 0).
Qed.
Lemma made_fresh : forall l s m n, mk_mesh l s = Some m -> (forall nd, In nd l -> (0 <= column nd)%Z /\ n_of nd = n) -> fresh m.
Proof.
  intros l s m n E H. destruct l as [| a l0]; [discriminate |]. set (l := a :: l0) in *. unfold mk_mesh in E. fold l in E. apply Some_inj in E. rewrite <- E.
  pose proof (renumber_keeps l) as K. unfold fresh. cbn [bs_errors losses nodes num_columns n_rails].
  split; [| split; [| split]].
  - pose proof (f_equal (map (fun q : (R * R) * (R * R) * nat * Z => snd (fst (fst q)))) K) as Q. rewrite !map_map in Q. symmetry. exact Q.
  - pose proof (f_equal (map (fun q : (R * R) * (R * R) * nat * Z => fst (fst (fst q)))) K) as Q. rewrite !map_map in Q. symmetry. exact Q.
  - intros nd Hd. apply (in_map (fun nd => (loss nd, bs_error nd, n_of nd, column nd))) in Hd. rewrite K in Hd. apply in_map_iff in Hd. destruct Hd as (x & Ex & Hx).
    assert (E1 : column x = column nd) by congruence. assert (E2 : n_of x = n_of nd) by congruence.
    destruct (H x Hx) as [G1 G2]. destruct (H a ltac:(left; reflexivity)) as [_ G3]. split; [| congruence].
    pose proof (zmax_ge (map column l) (column a) (column x) (in_map _ _ _ Hx)). lia.
  - pose proof (zmax_ge (map column l) (column a) (column a) (in_map column l a (in_eq a l0))). destruct (H a ltac:(left; reflexivity)). lia.
Qed.
Lemma tree_fresh : forall n r s, 2 <= n -> n <= r -> exists m, tree n r true s = Some m /\ wf_mesh m /\ fresh m /\ style m = s /\ n_rails m = r.
Proof.
  intros n r s H1 H2. destruct (tree_balanced n r s H1 H2) as (m & E & S & Nr & _ & _ & C & Rg & U & EB & EL & W). exists m.
  split; [exact E |]. split; [exact W |]. split; [| split; assumption]. split; [exact EB |]. split; [exact EL |]. split.
  - intros nd Hd. split; [apply Rg; exact Hd |]. destruct (U nd Hd) as (_ & _ & K). congruence.
  - rewrite C. pose proof (Nat.log2_up_pos n ltac:(lia)). lia.
Qed.
