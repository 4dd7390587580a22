(** Proofs for C170 (1): which rails a node of a tree combines. *)
From Coq Require Import Reals Lra Lia List ZArith Permutation Bool.
From Verif Require Import Cx Arr Spec_circuit Model_coupling Model_forward Model_vector Spec_mesh Spec_tree Spec_vunit
  Proof_node Proof_mesh Proof_forward Proof_forward2 Proof_forward3 Proof_forward4 Proof_null Proof_null2 Proof_tree.
Import ListNotations.
Local Open Scope nat_scope.

Lemma halving_range : forall a0 n0 a k, halving a0 n0 a k -> a0 <= a /\ a + k <= a0 + n0.
Proof.
  induction 1; [lia | |]; pose proof (Nat.div_mod k 2 ltac:(lia)) as E; pose proof (Nat.mod_upper_bound k 2 ltac:(lia)); lia.
Qed.
Lemma halving_trans : forall a0 n0 a1 n1 a k, halving a0 n0 a1 n1 -> halving a1 n1 a k -> halving a0 n0 a k.
Proof. intros a0 n0 a1 n1 a k H. induction 1; [exact H | apply halving_top; auto | apply halving_bottom; auto]. Qed.
Definition inside (a n : nat) (nd : node) : Prop := a <= top nd < a + n /\ a <= bottom nd < a + n.
Definition outside (a n : nat) (nd : node) : Prop := ~ (a <= top nd < a + n) /\ ~ (a <= bottom nd < a + n).
(** [before nd' nd]: nd' comes first. *)
Definition fed (before : node -> node -> Prop) (l : list node) (nd : node) (a h k : nat) : Prop :=
  0 < h < k /\ top nd = a + h - 1 /\ bottom nd = a + k - 1 /\
  (forall nd', In nd' l -> before nd' nd -> inside a h nd' \/ inside (a + h) (k - h) nd' \/ outside a k nd') /\
  (forall x, a <= x < a + k -> x <> top nd -> x <> bottom nd -> exists nd', In nd' l /\ top nd' = x /\ before nd' nd).
Definition deeper (x y : node) : Prop := (column y < column x)%Z.
Definition earlier (x y : node) : Prop := (column x < column y)%Z.
Lemma tree_rec_fed : forall fuel indices r start col, length indices < fuel ->
  exists l, tree_rec fuel indices r start col = Some l /\ tree_spec l indices r start col /\
    forall nd, In nd l -> exists a k, halving start (length indices + 1) a k /\ 2 <= k /\ fed deeper l nd a (k / 2) k.
Proof.
  induction fuel as [| fuel IH]; intros indices r start col Hf; [lia |].
  destruct (tree_rec_spec (S fuel) indices r start col Hf) as (l & El & Sl). exists l. split; [exact El |]. split; [exact Sl |].
  cbn [tree_rec] in El. set (n := length indices + 1) in *. set (m := n / 2) in *.
  destruct (Nat.eqb_spec n 1) as [En | En]; [apply Some_inj in El; subst l; intros nd [] |].
  assert (Hn : 2 <= n) by lia.
  pose proof (Nat.div_mod n 2 ltac:(lia)) as E. pose proof (Nat.mod_upper_bound n 2 ltac:(lia)) as E'. fold m in E.
  assert (Hm : 1 <= m) by lia. assert (Hmn : m < n) by lia.
  assert (L1 : length (firstn (m - 1) indices) = m - 1) by (rewrite firstn_length; lia).
  assert (L2 : length (skipn m indices) = n - 1 - m) by (rewrite skipn_length; lia).
  destruct (IH (firstn (m - 1) indices) r start (col + 1)%Z ltac:(lia)) as (l1 & E1 & S1 & F1).
  destruct (IH (skipn m indices) r (start + m) (col + 1)%Z ltac:(lia)) as (l2 & E2 & S2 & F2).
  rewrite E1 in El. cbn [obind] in El. rewrite E2 in El. cbn [obind] in El. apply Some_inj in El.
  rewrite L1 in *. rewrite L2 in *. replace (m - 1 + 1) with m in * by lia. replace (n - 1 - m + 1) with (n - m) in * by lia.
  pose proof (ts_range _ _ _ _ _ S1) as R1. pose proof (ts_range _ _ _ _ _ S2) as R2. pose proof (ts_col _ _ _ _ _ S1) as C1. pose proof (ts_col _ _ _ _ _ S2) as C2.
  pose proof (ts_tops _ _ _ _ _ S1) as T1. pose proof (ts_tops _ _ _ _ _ S2) as T2. rewrite L1 in *. rewrite L2 in *.
  subst l. match goal with |- forall nd, In nd (?x :: _) -> _ => set (root := x) in * end.
  assert (K1 : halving start n start m) by (apply halving_top; [apply halving_all | lia]).
  assert (K2 : halving start n (start + m) (n - m)) by (apply halving_bottom; [apply halving_all | lia]).
  intros nd [<- | H]; [| apply in_app_or in H; destruct H as [H | H]].
  - exists start, n. split; [apply halving_all |]. split; [lia |]. split; [lia |]. split; [reflexivity |]. split; [reflexivity |]. split.
    + intros nd' [<- | H] Hd; [unfold deeper in Hd; lia |]. apply in_app_or in H. destruct H as [H | H].
      * left. destruct (R1 nd' H) as (a & b & c & _). unfold inside. fold m. lia.
      * right. left. destruct (R2 nd' H) as (a & b & c & _). unfold inside. fold m. lia.
    + intros x Hx Ht Hb. cbn [root plain_node top bottom] in Ht, Hb. destruct (lt_dec x (start + m)) as [Hl | Hl].
      * assert (I : In x (map top l1)) by (eapply Permutation_in; [apply Permutation_sym, T1 | apply in_seq; lia]).
        apply in_map_iff in I. destruct I as (nd' & Et & Hin). exists nd'. split; [right; apply in_or_app; auto |]. split; [exact Et |].
        specialize (C1 nd' Hin). unfold deeper. cbn [root plain_node column]. lia.
      * assert (I : In x (map top l2)) by (eapply Permutation_in; [apply Permutation_sym, T2 | apply in_seq; lia]).
        apply in_map_iff in I. destruct I as (nd' & Et & Hin). exists nd'. split; [right; apply in_or_app; auto |]. split; [exact Et |].
        specialize (C2 nd' Hin). unfold deeper. cbn [root plain_node column]. lia.
  - destruct (F1 nd H) as (a & k & Hh & Hk & (A1 & A2 & A3 & A4 & A5)). pose proof (halving_range _ _ _ _ Hh) as Rg.
    exists a, k. split; [exact (halving_trans _ _ _ _ _ _ K1 Hh) |]. split; [exact Hk |]. split; [exact A1 |]. split; [exact A2 |]. split; [exact A3 |]. split.
    + intros nd' [<- | H'] Hd; [specialize (C1 nd H); unfold deeper in Hd; cbn [root plain_node column] in Hd; lia |].
      apply in_app_or in H'. destruct H' as [H' | H']; [apply A4; auto |].
      right. right. destruct (R2 nd' H') as (p & q & c & _). unfold outside. lia.
    + intros x Hx Ht Hb. destruct (A5 x Hx Ht Hb) as (nd' & H1 & H2 & H3). exists nd'. split; [right; apply in_or_app; auto | auto].
  - destruct (F2 nd H) as (a & k & Hh & Hk & (A1 & A2 & A3 & A4 & A5)). pose proof (halving_range _ _ _ _ Hh) as Rg.
    exists a, k. split; [exact (halving_trans _ _ _ _ _ _ K2 Hh) |]. split; [exact Hk |]. split; [exact A1 |]. split; [exact A2 |]. split; [exact A3 |]. split.
    + intros nd' [<- | H'] Hd; [specialize (C2 nd H); unfold deeper in Hd; cbn [root plain_node column] in Hd; lia |].
      apply in_app_or in H'. destruct H' as [H' | H']; [| apply A4; auto].
      right. right. destruct (R1 nd' H') as (p & q & c & _). unfold outside. lia.
    + intros x Hx Ht Hb. destruct (A5 x Hx Ht Hb) as (nd' & H1 & H2 & H3). exists nd'. split; [right; apply in_or_app; auto | auto].
Qed.
Lemma fed_map : forall b1 b2 (f : node -> node) l nd a h k, (forall x, top (f x) = top x /\ bottom (f x) = bottom x) ->
  (forall x, In x l -> (b2 (f x) (f nd) <-> b1 x nd)) -> fed b1 l nd a h k -> fed b2 (map f l) (f nd) a h k.
Proof.
  intros b1 b2 f l nd a h k Hf Hb (A1 & A2 & A3 & A4 & A5). destruct (Hf nd) as (Ft & Fb). split; [exact A1 |]. rewrite Ft, Fb. split; [exact A2 |]. split; [exact A3 |]. split.
  - intros nd' Hin Hd. apply in_map_iff in Hin. destruct Hin as (x & <- & Hin). apply (Hb x Hin) in Hd. specialize (A4 x Hin Hd).
    unfold inside, outside in *. destruct (Hf x) as (-> & ->). exact A4.
  - intros x Hx Ht Hbt. destruct (A5 x Hx Ht Hbt) as (nd' & H1 & H2 & H3). exists (f nd'). split; [apply in_map; auto |].
    split; [destruct (Hf nd') as (-> & _); auto | apply Hb; auto].
Qed.
Lemma tree_fed : forall n balanced s t, 2 <= n -> tree n n balanced s = Some t ->
  forall nd, In nd (nodes t) -> exists a h k, combines balanced n a h k /\ fed earlier (nodes t) nd a h k.
Proof.
  intros n balanced s t Hn Et. destruct balanced.
  - unfold tree in Et. destruct (tree_rec_fed n (seq 0 (n - 1)) n 0 0%Z) as (l & El & Sl & Fl); [rewrite seq_length; lia |].
    rewrite El in Et. cbn [obind] in Et. rewrite seq_length in *. replace (n - 1 + 1) with n in * by lia.
    pose proof (ts_ids _ _ _ _ _ Sl) as I. pose proof (ts_range _ _ _ _ _ Sl) as R. pose proof (ts_col _ _ _ _ _ Sl) as Cc. pose proof (ts_full _ _ _ _ _ Sl) as F.
    rewrite seq_length in *. replace (n - 1 + 1) with n in * by lia.
    assert (Hpos : 0 < Nat.log2_up n) by (apply Nat.log2_up_pos; lia).
    destruct (inverted_mesh l s (Nat.log2_up n) n) as (m & Em & Es & En & Enodes & _).
    + intro Hl. subst l. destruct (F 0%Z ltac:(lia)) as (nd & [] & _).
    + eapply Permutation_NoDup; [apply Permutation_sym, I | apply seq_NoDup].
    + intros nd H. apply (R nd H).
    + intros nd H. apply (Cc nd H).
    + destruct (F (Z.of_nat (Nat.log2_up n) - 1)%Z ltac:(lia)) as (nd & H1 & H2). eauto.
    + rewrite Em in Et. apply Some_inj in Et. subst t. rewrite Enodes. intros nd Hin. apply in_map_iff in Hin. destruct Hin as (x & <- & Hin).
      destruct (Fl x Hin) as (a & k & Hh & Hk & Hfed). exists a, (k / 2), k. split; [split; [exact Hh | split; [exact Hk | reflexivity]] |].
      apply (fed_map deeper earlier (fun nd => with_column nd (Z.of_nat (Nat.log2_up n) - 1 - column nd)%Z)); [intros; split; reflexivity | | exact Hfed].
      intros y _. unfold deeper, earlier. cbn [with_column column]. lia.
  - destruct (tree_chain n n s Hn (le_n n)) as (t' & Et' & _ & _ & Hnull & _ & _ & Hc & _). rewrite Et in Et'. apply Some_inj in Et'. subst t'.
    intros nd Hin. destruct (Hc nd Hin) as (H1 & H2 & H3). destruct Hnull as (_ & _ & Ht & Hr & _). specialize (Hr nd Hin).
    exists 0, (node_id nd + 1), (node_id nd + 2). split; [split; [reflexivity | lia] |]. split; [lia |]. split; [lia |]. split; [lia |]. split.
    + intros nd' Hin' Hd. left. destruct (Hc nd' Hin') as (A1 & A2 & A3). unfold earlier in Hd. unfold inside. lia.
    + intros x Hx Hxt Hxb. assert (I : In x (map top (nodes t))) by (eapply Permutation_in; [apply Permutation_sym, Ht | apply in_seq; lia]).
      apply in_map_iff in I. destruct I as (nd' & <- & Hin'). exists nd'. split; [auto |]. split; [auto |]. destruct (Hc nd' Hin') as (A1 & A2 & A3). unfold earlier. lia.
Qed.
