(** The loop of hessian_vector_unit in closed form. *)
From Coq Require Import Reals Lra Lia List ZArith Bool Arith.
From Verif Require Import Cx Arr Model_coupling Model_forward Model_vector Model_hess Proof_hess1 Proof_hess2 Proof_hess3.
Import ListNotations.
Local Open Scope R_scope.

Definition entry := (nat * list nat * list nat)%type.
Definition e_id (x : entry) : nat := fst (fst x).
Definition isdesc (ds : list entry) (i j : nat) : bool := existsb (fun x => Nat.eqb i (e_id x) && (mem j (snd (fst x)) || mem j (snd x))) ds.
Definition istop (ds : list entry) (i j : nat) : bool := existsb (fun x => Nat.eqb i (e_id x) && mem j (snd (fst x))) ds.
Lemma isdesc_out : forall ds i j, ~ In i (map e_id ds) -> isdesc ds i j = false.
Proof.
  induction ds as [| x ds IH]; intros i j H; [reflexivity |]. cbn [isdesc existsb]. cbn [map In] in H.
  replace (Nat.eqb i (e_id x)) with false by (symmetry; apply Nat.eqb_neq; intro K; apply H; auto). cbn [andb orb]. apply IH. tauto.
Qed.
Lemma istop_out : forall ds i j, ~ In i (map e_id ds) -> istop ds i j = false.
Proof.
  induction ds as [| x ds IH]; intros i j H; [reflexivity |]. cbn [istop existsb]. cbn [map In] in H.
  replace (Nat.eqb i (e_id x)) with false by (symmetry; apply Nat.eqb_neq; intro K; apply H; auto). cbn [andb orb]. apply IH. tauto.
Qed.
Lemma istop_desc : forall ds i j, istop ds i j = true -> isdesc ds i j = true.
Proof.
  intros ds i j. induction ds as [| x ds IH]; [discriminate |]. cbn [istop isdesc existsb]. rewrite !orb_true_iff, !andb_true_iff, orb_true_iff. intuition.
Qed.
Lemma isdesc_snoc : forall ds x i j, isdesc (ds ++ [x]) i j = (isdesc ds i j || (Nat.eqb i (e_id x) && (mem j (snd (fst x)) || mem j (snd x))))%bool.
Proof. intros. unfold isdesc. rewrite existsb_app. cbn [existsb]. rewrite orb_false_r. reflexivity. Qed.
Lemma istop_snoc : forall ds x i j, istop (ds ++ [x]) i j = (istop ds i j || (Nat.eqb i (e_id x) && mem j (snd (fst x))))%bool.
Proof. intros. unfold istop. rewrite existsb_app. cbn [existsb]. rewrite orb_false_r. reflexivity. Qed.

Section loop.
Variables pnF snF : nat -> R.
Definition c_tt (ds : list entry) : rmat := fun i j => if Nat.eqb i j then pnF i else if isdesc ds i j then pnF j / 2 else if isdesc ds j i then pnF i / 2 else 0.
Definition c_pp (ds : list entry) : rmat := fun i j => if Nat.eqb i j then 2 * snF i else if istop ds i j then 2 * snF j else if istop ds j i then 2 * snF i else 0.
Definition c_tp (ds : list entry) : rmat := fun i j => if istop ds j i then pnF i else 0.
Definition c_pt (ds : list entry) : rmat := fun i j => if Nat.eqb i j then snF i else if isdesc ds i j then snF j else 0.
Definition binv (ds : list entry) (b : blocks) : Prop :=
  (forall i j, b_tt b i j = c_tt ds i j) /\ (forall i j, b_pp b i j = c_pp ds i j) /\ (forall i j, b_tp b i j = c_tp ds i j) /\ (forall i j, b_pt b i j = c_pt ds i j).
(** Nobody is its own descendant, nor two nodes each other's. *)
Definition anti (ds : list entry) : Prop := forall i j, isdesc ds i j = true -> isdesc ds j i = false.
Lemma anti_irr : forall ds i, anti ds -> isdesc ds i i = false.
Proof. intros ds i H. destruct (isdesc ds i i) eqn:E; [rewrite <- E; apply H; exact E | reflexivity]. Qed.

Lemma step_inv : forall ds x b, anti (ds ++ [x]) -> ~ In (e_id x) (map e_id ds) -> binv ds b -> binv (ds ++ [x]) (hess_step pnF snF b x).
Proof.
  intros ds [[k tops] bots] b Ha Hk (H1 & H2 & H3 & H4). unfold e_id in Hk. cbn [fst] in Hk.
  assert (Hout : forall j, isdesc ds k j = false) by (intro j; apply isdesc_out; exact Hk).
  assert (Tout : forall j, istop ds k j = false) by (intro j; apply istop_out; exact Hk).
  assert (Hkk : mem k tops = false /\ mem k bots = false).
  { pose proof (anti_irr _ k Ha) as K. rewrite isdesc_snoc in K. cbn [e_id fst snd] in K. rewrite Nat.eqb_refl in K. apply orb_false_iff in K. destruct K as [_ K]. cbn [andb] in K.
    apply orb_false_iff in K. exact K. }
  destruct Hkk as [Kt Kb].
  assert (Hex : forall j, (mem j tops || mem j bots)%bool = true -> isdesc ds j k = false).
  { intros j Hj. assert (K : isdesc (ds ++ [(k, tops, bots)]) k j = true) by (rewrite isdesc_snoc; cbn [e_id fst snd]; rewrite Nat.eqb_refl, Hj; apply orb_true_r).
    apply Ha in K. rewrite isdesc_snoc in K. apply orb_false_iff in K. apply K. }
  assert (Tex : forall j, mem j tops = true -> istop ds j k = false).
  { intros j Hj. destruct (istop ds j k) eqn:E; [| reflexivity]. apply istop_desc in E. rewrite Hex in E by (rewrite Hj; reflexivity). discriminate. }
  unfold binv, hess_step. cbn [b_tt b_pp b_tp b_pt]. repeat split; intros i j.
  - unfold row_to_col, set_row. fold (mem j tops). fold (mem j bots). fold (mem i tops). fold (mem i bots). rewrite !H1. unfold c_tt. rewrite !isdesc_snoc. cbn [e_id fst snd].
    rewrite !Hout. destruct (Nat.eqb_spec j k) as [-> | Ej].
    + rewrite Nat.eqb_refl. cbn [andb]. rewrite (Nat.eqb_sym i k). destruct (Nat.eqb_spec k i) as [<- | Ei].
      * rewrite Kt, Kb. reflexivity.
      * cbn [andb orb]. rewrite orb_false_r. rewrite !Hout. destruct (mem i bots) eqn:Eb; [| destruct (mem i tops) eqn:Et].
        -- rewrite Hex by (rewrite Eb; apply orb_true_r). rewrite orb_true_r. reflexivity.
        -- rewrite Hex by (rewrite Et; reflexivity). reflexivity.
        -- cbn [orb]. destruct (isdesc ds i k); reflexivity.
    + cbn [andb]. rewrite orb_false_r. destruct (Nat.eqb_spec i k) as [-> | Ei].
      * cbn [andb]. rewrite Hout. destruct (Nat.eqb_spec k j); [congruence |]. destruct (mem j bots); [rewrite orb_true_r; reflexivity |].
        destruct (mem j tops); reflexivity.
      * cbn [andb orb]. rewrite orb_false_r. reflexivity.
  - unfold row_to_col, set_row. fold (mem j tops). fold (mem i tops). rewrite !H2. unfold c_pp. rewrite !istop_snoc. cbn [e_id fst snd].
    rewrite !Tout. destruct (Nat.eqb_spec j k) as [-> | Ej].
    + rewrite Nat.eqb_refl. cbn [andb]. rewrite (Nat.eqb_sym i k). destruct (Nat.eqb_spec k i) as [<- | Ei].
      * rewrite Kt. reflexivity.
      * cbn [andb orb]. rewrite orb_false_r. rewrite !Tout. destruct (mem i tops) eqn:Et.
        -- rewrite Tex by exact Et. reflexivity.
        -- destruct (istop ds i k); reflexivity.
    + cbn [andb]. rewrite orb_false_r. destruct (Nat.eqb_spec i k) as [-> | Ei].
      * cbn [andb]. rewrite Tout. destruct (Nat.eqb_spec k j); [congruence |]. destruct (mem j tops); reflexivity.
      * cbn [andb orb]. rewrite orb_false_r. reflexivity.
  - unfold set_col. fold (mem i tops). rewrite H3. unfold c_tp. rewrite istop_snoc. cbn [e_id fst snd]. destruct (Nat.eqb_spec j k) as [-> | Ej].
    + rewrite Tout. cbn [andb orb]. reflexivity.
    + cbn [andb]. rewrite orb_false_r. reflexivity.
  - unfold set_row. fold (mem j tops). fold (mem j bots). rewrite H4. unfold c_pt. rewrite isdesc_snoc. cbn [e_id fst snd]. destruct (Nat.eqb_spec i k) as [-> | Ei].
    + rewrite Hout. cbn [andb orb]. destruct (Nat.eqb_spec k j) as [<- | Ej]; [rewrite Kt, Kb; reflexivity |].
      destruct (mem j bots); [rewrite orb_true_r; reflexivity |]. destruct (mem j tops); reflexivity.
    + cbn [andb]. rewrite orb_false_r. reflexivity.
Qed.
Lemma isdesc_app_l : forall d1 d2 i j, isdesc d1 i j = true -> isdesc (d1 ++ d2) i j = true.
Proof. intros. unfold isdesc in *. rewrite existsb_app, H. reflexivity. Qed.
Lemma anti_app_l : forall d1 d2, anti (d1 ++ d2) -> anti d1.
Proof.
  intros d1 d2 H i j E. apply (isdesc_app_l _ d2) in E. apply H in E. destruct (isdesc d1 j i) eqn:K; [| reflexivity].
  rewrite (isdesc_app_l d1 d2 j i K) in E. discriminate.
Qed.
Lemma fold_inv : forall rest done b, anti (done ++ rest) -> NoDup (map e_id (done ++ rest)) -> binv done b ->
  binv (done ++ rest) (fold_left (hess_step pnF snF) rest b).
Proof.
  induction rest as [| x rest IH]; intros done b Ha Hn Hb; [rewrite app_nil_r; exact Hb |]. cbn [fold_left].
  replace (done ++ x :: rest) with ((done ++ [x]) ++ rest) in * by (rewrite <- app_assoc; reflexivity).
  apply IH; [exact Ha | exact Hn |]. apply step_inv; [apply (anti_app_l _ rest Ha) | | exact Hb].
  rewrite !map_app in Hn. apply Proof_forward3.NoDup_app_fst in Hn. cbn [map] in Hn. intro K. apply (nodup_app_disj _ _ _ _ Hn K). left. reflexivity.
Qed.
Lemma hess_blocks_closed : forall ds, anti ds -> NoDup (map e_id ds) -> binv ds (hess_blocks pnF snF ds).
Proof.
  intros ds Ha Hn. unfold hess_blocks. apply (fold_inv ds []); [exact Ha | exact Hn |].
  unfold binv. cbn [b_tt b_pp b_tp b_pt]. unfold c_tt, c_pp, c_tp, c_pt, rdiag. cbn [isdesc istop existsb]. repeat split; intros; try reflexivity.
  destruct (Nat.eqb i j); ring.
Qed.
End loop.

(** The entries of a tree. *)
Inductive ds_ok : bt -> list entry -> Prop :=
| ds_lf : forall r, ds_ok (Lf r) []
| ds_nd : forall nd T B tops bots d1 d2, (forall j, In j tops <-> In j (ids T)) -> (forall j, In j bots <-> In j (ids B)) -> ds_ok T d1 -> ds_ok B d2 ->
    ds_ok (Nd nd T B) ((node_id nd, tops, bots) :: d1 ++ d2).
Lemma mem_ext : forall j l l', (In j l <-> In j l') -> mem j l = mem j l'.
Proof.
  intros j l l' H. destruct (mem j l) eqn:E.
  - symmetry. apply mem_in, H, mem_In, E.
  - symmetry. apply mem_out. intro K. apply H in K. apply mem_In in K. congruence.
Qed.
Lemma mem_app : forall j a b, mem j (a ++ b) = (mem j a || mem j b)%bool.
Proof. intros. unfold mem. apply existsb_app. Qed.
Lemma ds_ids : forall t ds, ds_ok t ds -> map e_id ds = ids t.
Proof.
  intros t ds H. induction H; [reflexivity |]. rewrite ids_nd. cbn [map]. rewrite map_app, IHds_ok1, IHds_ok2. reflexivity.
Qed.
Lemma ds_desc : forall t ds, ds_ok t ds -> forall i j, isdesc ds i j = tdesc t i j.
Proof.
  intros t ds H. induction H; intros i j; [reflexivity |]. cbn [tdesc]. rewrite mem_app, <- (mem_ext j tops _ (H j)), <- (mem_ext j bots _ (H0 j)).
  rewrite <- IHds_ok1, <- IHds_ok2. unfold isdesc. cbn [existsb]. rewrite existsb_app, orb_assoc. reflexivity.
Qed.
Lemma ds_top : forall t ds, ds_ok t ds -> forall i j, istop ds i j = ttop t i j.
Proof.
  intros t ds H. induction H; intros i j; [reflexivity |]. cbn [ttop]. rewrite <- (mem_ext j tops _ (H j)).
  rewrite <- IHds_ok1, <- IHds_ok2. unfold istop. cbn [existsb]. rewrite existsb_app, orb_assoc. reflexivity.
Qed.
Lemma tdesc_anti : forall t i j, NoDup (ids t) -> tdesc t i j = true -> tdesc t j i = false.
Proof.
  induction t as [r | nd T IHT B IHB]; intros i j Hnd H; [discriminate |]. rewrite ids_nd in Hnd. apply NoDup_cons_iff in Hnd. destruct Hnd as [Hk Hd].
  pose proof (Proof_forward3.NoDup_app_fst _ _ _ Hd) as HndT. pose proof (Proof_forward3.NoDup_app_snd _ _ _ Hd) as HndB.
  assert (HkT : ~ In (node_id nd) (ids T)) by (intro K; apply Hk; apply in_or_app; auto).
  assert (HkB : ~ In (node_id nd) (ids B)) by (intro K; apply Hk; apply in_or_app; auto).
  cbn [tdesc] in *. apply orb_true_iff in H. destruct H as [H | H]; [apply orb_true_iff in H; destruct H as [H | H] |].
  - apply andb_true_iff in H. destruct H as [H1 H2]. apply Nat.eqb_eq in H1. apply mem_In in H2. subst i.
    rewrite (tdesc_out2 T), (tdesc_out2 B), (mem_out (node_id nd)) by assumption. rewrite andb_false_r. reflexivity.
  - destruct (tdesc_ids T i j H) as [H1 H2].
    replace (Nat.eqb j (node_id nd)) with false by (symmetry; apply Nat.eqb_neq; congruence). cbn [andb orb].
    rewrite (IHT i j HndT H), tdesc_out1; [reflexivity | intro K; apply (nodup_app_disj _ _ _ _ Hd H2 K)].
  - destruct (tdesc_ids B i j H) as [H1 H2].
    replace (Nat.eqb j (node_id nd)) with false by (symmetry; apply Nat.eqb_neq; congruence). cbn [andb orb].
    rewrite (IHB i j HndB H), tdesc_out1; [reflexivity | intro K; apply (nodup_app_disj _ _ _ _ Hd K H2)].
Qed.
Lemma ttop_desc : forall t i j, ttop t i j = true -> tdesc t i j = true.
Proof.
  induction t as [r | nd T IHT B IHB]; intros i j H; [discriminate |]. cbn [tdesc ttop] in *. rewrite mem_app.
  apply orb_true_iff in H. destruct H as [H | H]; [apply orb_true_iff in H; destruct H as [H | H] |].
  - apply andb_true_iff in H. destruct H as [-> ->]. reflexivity.
  - rewrite (IHT i j H), orb_true_r. reflexivity.
  - rewrite (IHB i j H). apply orb_true_r.
Qed.

(** The block matrix as hu of the transposed off-diagonal index. *)
Definition ph_of (n a : nat) : phase := if Nat.ltb a (n - 1) then (false, a) else (true, a - (n - 1))%nat.
(** Entry (a, b) is the second derivative by these two phases. *)
Definition pair_of (n a b : nat) : phase * phase :=
  if Nat.ltb a (n - 1) then if Nat.ltb b (n - 1) then ((false, a), (false, b)) else ((false, b - (n - 1)), (true, a))%nat
  else if Nat.ltb b (n - 1) then ((false, a - (n - 1)), (true, b))%nat else ((true, a - (n - 1)), (true, b - (n - 1)))%nat.
Lemma hess_matrix_hu : forall pnF snF n t ds, ds_ok t ds -> NoDup (ids t) -> forall a b,
  hess_matrix n (hess_blocks pnF snF ds) a b = hu pnF snF t (fst (pair_of n a b)) (snd (pair_of n a b)).
Proof.
  intros pnF snF n t ds Hds Hnd a b.
  destruct (hess_blocks_closed pnF snF ds) as (H1 & H2 & H3 & H4).
  { intros i j E. rewrite (ds_desc t ds Hds) in *. apply tdesc_anti; assumption. }
  { rewrite (ds_ids t ds Hds). exact Hnd. }
  assert (Htt : forall i j, b_tt (hess_blocks pnF snF ds) i j = hu pnF snF t (false, i) (false, j)).
  { intros i j. rewrite H1. unfold c_tt, hu, lift, wt. cbn [fst snd Bool.eqb]. rewrite !(ds_desc t ds Hds). destruct (Nat.eqb i j); [lra | reflexivity]. }
  assert (Hpp : forall i j, b_pp (hess_blocks pnF snF ds) i j = hu pnF snF t (true, i) (true, j)).
  { intros i j. rewrite H2. unfold c_pp, hu, lift, wt. cbn [fst snd Bool.eqb]. rewrite !(ds_top t ds Hds). destruct (Nat.eqb i j); [reflexivity |].
    pose proof (ttop_desc t i j) as K1. pose proof (ttop_desc t j i) as K2. pose proof (tdesc_anti t i j Hnd) as K3.
    destruct (ttop t i j), (ttop t j i), (tdesc t i j), (tdesc t j i); try reflexivity;
      try (specialize (K1 eq_refl); discriminate); try (specialize (K2 eq_refl); discriminate); try (specialize (K3 eq_refl); discriminate). }
  assert (Hof : forall i j, b_tp (hess_blocks pnF snF ds) i j + b_pt (hess_blocks pnF snF ds) i j = hu pnF snF t (false, i) (true, j)).
  { intros i j. rewrite H3, H4. unfold c_tp, c_pt, hu, lift, wt. cbn [fst snd Bool.eqb]. rewrite !(ds_desc t ds Hds), !(ds_top t ds Hds).
    pose proof (ttop_desc t j i) as K2. pose proof (tdesc_anti t i j Hnd) as K3.
    destruct (Nat.eqb_spec i j) as [<- | Eij].
    - destruct (ttop t i i); [specialize (K2 eq_refl); specialize (K3 K2); congruence | lra].
    - destruct (ttop t j i), (tdesc t i j), (tdesc t j i); try lra; try (specialize (K2 eq_refl); discriminate); try (specialize (K3 eq_refl); discriminate). }
  unfold hess_matrix, pair_of. destruct (Nat.ltb a (n - 1)), (Nat.ltb b (n - 1)); cbn [fst snd]; auto.
Qed.
