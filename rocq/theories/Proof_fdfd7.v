(** COO assembly of the 2-D operators of the jax solver. *)
From Coq Require Import Reals List Arith ZArith Lra Lia Bool.
From Verif Require Import Cx Arr Model_coupling Model_yee Spec_yee Proof_yee Proof_yee2 Proof_yee3 Model_fdfd Spec_fdfd Proof_fdfd Proof_fdfd2 Proof_fdfd3 Proof_fdfd4.
Import ListNotations.
Local Open Scope R_scope.

Lemma coo_app : forall l1 l2 r c, coo (l1 ++ l2) r c = (coo l1 r c + coo l2 r c)%C.
Proof. induction l1 as [| [[i j] v] l1 IH]; intros; cbn [coo List.app]; [ring | rewrite IH; ring]. Qed.
Lemma with_data_app : forall i1 i2 v1 v2, length i1 = length v1 -> with_data (i1 ++ i2) (v1 ++ v2) = with_data i1 v1 ++ with_data i2 v2.
Proof.
  intros i1 i2 v1 v2 H. unfold with_data. rewrite <- map_app. f_equal.
  revert v1 H. induction i1; destruct v1; cbn; intros; try discriminate; auto. f_equal. auto.
Qed.
Lemma with_data_map : forall (l : list (nat * nat)) (g : nat * nat -> C), with_data l (map g l) = map (fun p => (fst p, snd p, g p)) l.
Proof. intros. unfold with_data. induction l; cbn; auto. f_equal; auto. Qed.
Lemma coo_out : forall (l : list (nat * nat)) g r c, ~ In (r, c) l -> coo (map (fun p => (fst p, snd p, g p)) l) r c = C0.
Proof.
  induction l as [| [i j] l IH]; intros g r c H; cbn [map coo]; auto.
  cbn [fst snd]. destruct (Nat.eqb_spec i r), (Nat.eqb_spec j c); cbn [andb]; subst; try (exfalso; apply H; left; reflexivity);
    rewrite IH by (intros A; apply H; right; auto); ring.
Qed.
Lemma coo_in : forall (l : list (nat * nat)) g r c, NoDup l -> In (r, c) l -> coo (map (fun p => (fst p, snd p, g p)) l) r c = g (r, c).
Proof.
  induction l as [| [i j] l IH]; intros g r c Hn H; [destruct H |]. inversion Hn as [| ? ? Hni Hnd]; subst. cbn [map coo fst snd].
  destruct H as [E | H].
  - injection E as -> ->. rewrite !Nat.eqb_refl. cbn [andb]. rewrite coo_out by auto. ring.
  - destruct (Nat.eqb_spec i r), (Nat.eqb_spec j c); cbn [andb]; subst; try (exfalso; apply Hni; exact H); rewrite IH by auto; ring.
Qed.
Lemma NoDup_positions : forall n, NoDup (positions n).
Proof.
  intros. unfold positions. assert (G : forall (a b : list nat), NoDup a -> NoDup b -> NoDup (list_prod a b)).
  { induction a as [| x a IH]; intros b Ha Hb; cbn; [constructor |]. inversion Ha; subst.
    assert (Hm : NoDup (map (fun y => (x, y)) b)) by (apply FinFun.Injective_map_NoDup; [intros u v E; injection E; auto | auto]).
    revert Hm. generalize (IH b H2 Hb). intros Hl Hm.
    assert (Hd : forall p, In p (map (fun y => (x, y)) b) -> ~ In p (list_prod a b)).
    { intros p Hp Hq. apply in_map_iff in Hp. destruct Hp as (y & <- & _). apply in_prod_iff in Hq. tauto. }
    clear IH. revert Hm Hd. induction (map (fun y => (x, y)) b) as [| p q IHq]; cbn; intros; auto.
    inversion Hm; subst. constructor.
    - intros A. apply in_app_or in A. destruct A as [A | A]; [contradiction |]. apply (Hd p); auto.
    - apply IHq; auto. }
  apply G; apply seq_NoDup.
Qed.
Lemma Ceqb_true : forall a b, Ceqb a b = true <-> a = b.
Proof.
  intros a b. unfold Ceqb. destruct (Req_EM_T (re a) (re b)), (Req_EM_T (im a) (im b)); split; intros H; try discriminate; auto;
    try (apply C_eq; auto); try (subst; congruence).
Qed.
Lemma in_support : forall n M r c, In (r, c) (support n M) <-> (r < n)%nat /\ (c < n)%nat /\ M r c <> C0.
Proof.
  intros. unfold support, positions. rewrite filter_In, in_prod_iff, !in_seq. cbn [fst snd].
  split.
  - intros ((H1 & H2) & H3). repeat split; try lia. intros E. apply Ceqb_true in E. rewrite E in H3. discriminate.
  - intros (H1 & H2 & H3). repeat split; try lia. destruct (Ceqb (M r c) C0) eqn:E; auto. apply Ceqb_true in E. contradiction.
Qed.
Lemma coo_support : forall n M r c, (r < n)%nat -> (c < n)%nat -> coo (with_data (support n M) (nz_data n M)) r c = M r c.
Proof.
  intros n M r c Hr Hc. unfold nz_data. rewrite with_data_map.
  destruct (Ceqb (M r c) C0) eqn:E.
  - apply Ceqb_true in E. rewrite coo_out; [auto |]. rewrite in_support. tauto.
  - rewrite coo_in; [reflexivity | apply NoDup_filter, NoDup_positions |]. apply in_support. repeat split; auto.
    intros A. apply Ceqb_true in A. congruence.
Qed.
Lemma coo_diag : forall n (f : nat -> C) r c, (r < n)%nat -> coo (with_data (diag_idx n) (map f (seq 0 n))) r c = if Nat.eqb r c then f r else C0.
Proof.
  intros n f r c Hr.
  replace (map f (seq 0 n)) with (map (fun p : nat * nat => f (fst p)) (diag_idx n)) by (unfold diag_idx; rewrite map_map; reflexivity).
  rewrite with_data_map. destruct (Nat.eqb_spec r c) as [-> | E].
  - rewrite coo_in; auto.
    + unfold diag_idx. apply FinFun.Injective_map_NoDup; [intros u v E; injection E; auto | apply seq_NoDup].
    + unfold diag_idx. apply in_map_iff. exists c. split; auto. apply in_seq. lia.
  - apply coo_out. unfold diag_idx. rewrite in_map_iff. intros (x & A & _). injection A. intros. congruence.
Qed.
Lemma len_diag : forall n (f : nat -> C), length (diag_idx n) = length (map f (seq 0 n)).
Proof. intros. unfold diag_idx. rewrite !map_length. reflexivity. Qed.
Lemma te_assembly : forall d r c, (r < dn d)%nat -> (c < dn d)%nat -> te_matrix d r c = mat_ez d r c.
Proof.
  intros d r c Hr Hc. unfold te_matrix. rewrite with_data_app by apply len_diag. rewrite coo_app, coo_diag, coo_support by auto.
  unfold mat_ez, diagm. destruct (Nat.eqb r c); ring.
Qed.
