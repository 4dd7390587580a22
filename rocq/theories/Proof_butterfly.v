(** Butterfly and bowtie node lists (C18, C19). *)
From Coq Require Import Reals Lra Lia List ZArith Permutation Bool.
From Verif Require Import Cx Arr Spec_circuit Model_coupling Model_forward Model_vector Spec_mesh Spec_tree
  Proof_mesh Proof_forward Proof_forward2 Proof_tree.
Import ListNotations.
Local Open Scope nat_scope.

Record bspec (l : list node) (n r start : nat) (col : Z) : Prop := {
  bs_ids : forall nd, In nd l -> node_id nd = 0;
  bs_range : forall nd, In nd l -> start <= top nd /\ top nd < bottom nd /\ bottom nd < start + n /\ n_of nd = r;
  bs_col : forall nd, In nd l -> (col <= column nd < col + Z.of_nat (Nat.log2_up n))%Z;
  bs_disj : forall c, NoDup (map top (in_col c l) ++ map bottom (in_col c l));
  bs_full : forall c, (col <= c < col + Z.of_nat (Nat.log2_up n))%Z -> exists nd, In nd l /\ column nd = c;
  bs_count : forall k, n = 2 ^ k -> forall c, (col <= c < col + Z.of_nat k)%Z -> 2 * length (in_col c l) = n }.

Lemma butterfly_rec_spec : forall fuel n r start col, 1 <= n -> n <= fuel ->
  exists l, butterfly_rec fuel n r start col = Some l /\ bspec l n r start col.
Proof.
  induction fuel as [| fuel IH]; intros n r start col Hn Hf; [lia |].
  cbn [butterfly_rec]. set (m := n / 2) in *.
  destruct (Nat.eqb_spec n 1) as [En | En].
  - exists []. split; auto. subst n. constructor.
    + intros ? [].
    + intros ? [].
    + intros ? [].
    + intros; constructor.
    + change (Nat.log2_up 1) with 0. intros; lia.
    + intros k Hk c Hc. destruct k; [lia |]. rewrite Nat.pow_succ_r' in Hk. lia.
  - assert (H2 : 2 <= n) by lia.
    pose proof (Nat.div_mod n 2 ltac:(lia)) as E. pose proof (Nat.mod_upper_bound n 2 ltac:(lia)) as E'. fold m in E.
    destruct (IH m r start (col + 1)%Z ltac:(lia) ltac:(lia)) as (l1 & E1 & [I1 R1 C1 D1 F1 N1]).
    destruct (IH (n - m) r (start + m) (col + 1)%Z ltac:(lia) ltac:(lia)) as (l2 & E2 & [I2 R2 C2 D2 F2 N2]).
    rewrite E1. cbn [obind]. rewrite E2. cbn [obind].
    set (l0 := map _ (rev (seq 0 m))).
    assert (H0 : forall nd, In nd l0 -> exists i, i < m /\ nd = plain_node 0 r (start + i) (start + m + i) (m + 1) (m + 1) col).
    { intros nd H. unfold l0 in H. apply in_map_iff in H. destruct H as (i & <- & Hi). apply in_rev in Hi. apply in_seq in Hi. exists i. split; [lia | auto]. }
    assert (Hd : Nat.log2_up n = S (Nat.log2_up (n - m))) by (apply log2_up_half; auto).
    assert (Hd1 : Nat.log2_up m <= Nat.log2_up (n - m)) by (apply log2_up_mono; lia).
    assert (C0c : in_col col l0 = l0).
    { clear -H0. induction l0 as [| a l IH]; auto. unfold in_col in *. cbn [filter].
      destruct (H0 a (or_introl eq_refl)) as (i & Hi & Ea). rewrite IH by (intros; apply H0; right; auto).
      rewrite Ea at 1. cbn [column plain_node]. rewrite Z.eqb_refl. reflexivity. }
    assert (C12 : in_col col (l1 ++ l2) = []).
    { apply in_col_none. intros nd H. apply in_app_or in H; destruct H as [H | H]; [specialize (C1 nd H) | specialize (C2 nd H)]; lia. }
    assert (C0n : forall c, c <> col -> in_col c l0 = []).
    { intros c Hc. apply in_col_none. intros nd H. destruct (H0 nd H) as (i & Hi & ->). simpl. auto. }
    exists (l0 ++ l1 ++ l2). split; [reflexivity |].
    constructor.
    + intros nd H. apply in_app_or in H. destruct H as [H | H]; [destruct (H0 nd H) as (i & Hi & ->); reflexivity |].
      apply in_app_or in H. destruct H; auto.
    + intros nd H. apply in_app_or in H. destruct H as [H | H]; [destruct (H0 nd H) as (i & Hi & ->); simpl; lia |].
      apply in_app_or in H. destruct H as [H | H]; [specialize (R1 nd H) | specialize (R2 nd H)]; lia.
    + intros nd H. rewrite Hd. apply in_app_or in H. destruct H as [H | H]; [destruct (H0 nd H) as (i & Hi & ->); simpl; lia |].
      apply in_app_or in H. destruct H as [H | H]; [specialize (C1 nd H) | specialize (C2 nd H)]; lia.
    + intro c. rewrite in_col_app. destruct (Z.eq_dec c col) as [-> | Hc].
      * rewrite C12, C0c, app_nil_r. unfold l0. rewrite !map_map. cbn [top bottom plain_node].
        apply NoDup_app_intro.
        -- apply FinFun.Injective_map_NoDup; [intros x y; lia | apply NoDup_rev, seq_NoDup].
        -- apply FinFun.Injective_map_NoDup; [intros x y; lia | apply NoDup_rev, seq_NoDup].
        -- intros x Hx Hy. apply in_map_iff in Hx, Hy. destruct Hx as (i & Ei & Hi). destruct Hy as (j & Ej & Hj).
           apply in_rev in Hi, Hj. apply in_seq in Hi, Hj. lia.
      * rewrite C0n by auto. cbn [List.app]. rewrite in_col_app. apply (disjoint_ranges (start + m)); auto.
        -- intros nd H. apply in_col_In in H. destruct (R1 nd (proj1 H)) as (a & b & d & _). lia.
        -- intros nd H. apply in_col_In in H. destruct (R2 nd (proj1 H)) as (a & b & d & _). lia.
    + intros c Hc. destruct (Z.eq_dec c col) as [-> | Hne].
      * exists (plain_node 0 r (start + 0) (start + m + 0) (m + 1) (m + 1) col). split; [| reflexivity].
        apply in_or_app. left. unfold l0. apply in_map_iff. exists 0. split; [reflexivity |]. apply -> in_rev. apply in_seq. lia.
      * destruct (F2 c ltac:(lia)) as (nd & A & B). exists nd. split; auto. apply in_or_app. right. apply in_or_app; auto.
    + intros k Hk c Hc. destruct k as [| k]; [simpl in Hk; lia |]. rewrite Nat.pow_succ_r' in Hk.
      assert (Hm : m = 2 ^ k) by lia.
      rewrite in_col_app, app_length. destruct (Z.eq_dec c col) as [-> | Hne].
      * rewrite C0c, C12. cbn [length]. unfold l0. rewrite map_length, rev_length, seq_length. lia.
      * rewrite C0n by auto. rewrite in_col_app, app_length. cbn [length].
        pose proof (N1 k Hm c ltac:(lia)). pose proof (N2 k ltac:(lia) c ltac:(lia)). lia.
Qed.

(** ids all zero: mk_mesh first replaces them by the list positions. *)
Definition renum (k : nat) (l : list node) : list node := map (fun p => with_id (snd p) (fst p)) (combine (seq k (length l)) l).
Lemma renum_ids : forall l k, map node_id (renum k l) = seq k (length l).
Proof. induction l as [| a l IH]; intros k; auto. unfold renum in *. cbn. f_equal. apply IH. Qed.
Lemma renum_map : forall (A : Type) (f : node -> A) l k, (forall nd i, f (with_id nd i) = f nd) -> map f (renum k l) = map f l.
Proof. intros A f l. induction l as [| a l IH]; intros k H; auto. unfold renum in *. cbn. rewrite H. f_equal. apply IH; auto. Qed.
Lemma renum_in : forall l k nd, In nd (renum k l) -> exists a i, In a l /\ nd = with_id a i.
Proof.
  induction l as [| a l IH]; intros k nd H; [destruct H |]. unfold renum in H. cbn in H. destruct H as [<- | H].
  - exists a, k. split; [left; auto | auto].
  - destruct (IH (S k) nd H) as (b & i & Hb & E). exists b, i. split; [right; auto | auto].
Qed.
Lemma renum_in' : forall l k a, In a l -> exists i, In (with_id a i) (renum k l).
Proof.
  induction l as [| b l IH]; intros k a H; [destruct H |]. unfold renum. cbn. destruct H as [<- | H].
  - exists k. left; auto.
  - destruct (IH (S k) a H) as (i & Hi). exists i. right. exact Hi.
Qed.
Lemma renum_col : forall (A : Type) (f : node -> A) l k c, (forall nd i, f (with_id nd i) = f nd) ->
  map f (in_col c (renum k l)) = map f (in_col c l).
Proof.
  intros A f l. induction l as [| a l IH]; intros k c H; auto. unfold renum in *. cbn. specialize (IH (S k) c H). unfold in_col in *. cbn.
  destruct (Z.eqb (column a) c); cbn; rewrite IH, ?H; auto.
Qed.
Lemma renumber_renum : forall l, (forall nd, In nd l -> node_id nd = 0) -> renumber l = renum 0 l.
Proof.
  intros l H. unfold renumber. replace (fold_right Nat.add 0 (map node_id l)) with 0; [reflexivity |].
  induction l as [| a l IH]; auto. cbn. rewrite (H a (or_introl eq_refl)), <- IH; auto. intros; apply H; right; auto.
Qed.
Lemma mk_mesh_renum : forall l s, (forall nd, In nd l -> node_id nd = 0) -> mk_mesh l s = mk_mesh (renum 0 l) s.
Proof.
  intros l s H. destruct l as [| a l]; auto. set (L := a :: l) in *. unfold mk_mesh.
  rewrite (renumber_renum L) by auto. rewrite (renumber_single (renum 0 L)) by (rewrite renum_ids; apply seq_NoDup).
  assert (E : renum 0 L = with_id a 0 :: renum 1 l) by reflexivity. rewrite E.
  rewrite <- E. rewrite (renum_map _ bs_error L 0), (renum_map _ loss L 0), (renum_map _ column L 0) by reflexivity. reflexivity.
Qed.

Lemma butterfly_spec : forall n r, 2 <= n -> n <= r ->
  exists m, butterfly n r = Some m /\ style m = TOP /\ n_rails m = r /\ wf_mesh m /\
    map node_id (nodes m) = seq 0 (length (nodes m)) /\
    num_columns m = Z.of_nat (Nat.log2_up n) /\
    (forall nd, In nd (nodes m) -> top nd < bottom nd < n /\ (0 <= column nd < num_columns m)%Z) /\
    (forall k, n = 2 ^ k -> num_columns m = Z.of_nat k /\
       forall c, (0 <= c < Z.of_nat k)%Z -> 2 * length (filter (fun nd => Z.eqb (column nd) c) (nodes m)) = n).
Proof.
  intros n r Hn Hr. unfold butterfly.
  destruct (butterfly_rec_spec n n r 0 0%Z ltac:(lia) (le_n n)) as (l & E & [I R Cc D F N]).
  rewrite E. cbn [obind]. rewrite (mk_mesh_renum l TOP I).
  assert (Hpos : 0 < Nat.log2_up n) by (apply Nat.log2_up_pos; lia).
  set (d := Nat.log2_up n) in *.
  assert (Hlen : length (renum 0 l) = length l) by (unfold renum; rewrite map_length, combine_length, seq_length; lia).
  destruct (inverted_mesh (renum 0 l) TOP d r) as (m & Em & Es & En & Enodes & Ee & El & Enc).
  - intro Hl. destruct (F 0%Z ltac:(lia)) as (nd & H & _). destruct (renum_in' l 0 nd H) as (i & Hi). rewrite Hl in Hi. destruct Hi.
  - rewrite renum_ids. apply seq_NoDup.
  - intros nd H. destruct (renum_in l 0 nd H) as (a & i & Ha & ->). apply (R a Ha).
  - intros nd H. destruct (renum_in l 0 nd H) as (a & i & Ha & ->). apply (Cc a Ha).
  - destruct (F (Z.of_nat d - 1)%Z ltac:(lia)) as (nd & H1 & H2). destruct (renum_in' l 0 nd H1) as (i & Hi). eauto.
  - exists m. split; [exact Em |]. split; [auto |]. split; [auto |].
    assert (HIn : forall nd, In nd (nodes m) -> exists a i, In a l /\ nd = with_column (with_id a i) (Z.of_nat d - 1 - column a)%Z).
    { intros nd H. rewrite Enodes in H. apply in_map_iff in H. destruct H as [b [Eb H]]. destruct (renum_in l 0 b H) as (a & i & Ha & ->).
      exists a, i. split; auto. }
    assert (Hids : map node_id (nodes m) = seq 0 (length (nodes m))).
    { rewrite Enodes, map_map, map_length, Hlen. cbn [with_column node_id]. apply renum_ids. }
    assert (Hrg : forall nd, In nd (nodes m) -> top nd < bottom nd < n /\ (0 <= column nd < num_columns m)%Z).
    { intros nd H. destruct (HIn nd H) as (a & i & Ha & ->). cbn. destruct (R a Ha) as (? & ? & ? & _). specialize (Cc a Ha). lia. }
    assert (Hcolm : forall c (f : node -> nat), (forall nd i k, f (with_column (with_id nd i) k) = f nd) ->
       map f (in_col c (nodes m)) = map f (in_col (Z.of_nat d - 1 - c)%Z l)).
    { intros c f Hf. rewrite Enodes, (in_col_shift _ (fun c => Z.of_nat d - 1 - c)%Z) by (intros; lia).
      rewrite map_map. rewrite (map_ext _ f).
      - apply renum_col. intros nd i. rewrite <- (Hf nd i (column nd)). destruct nd; reflexivity.
      - intro nd. rewrite <- (Hf nd (node_id nd) (Z.of_nat d - 1 - column nd)%Z). destruct nd; reflexivity. }
    split.
    { split; [| split; [| split]].
      - intro c. change (NoDup (map top (in_col c (nodes m)) ++ map bottom (in_col c (nodes m)))).
        rewrite !Hcolm by reflexivity. apply D.
      - intros nd H. destruct (Hrg nd H) as [H1 _]. rewrite En, Ee, map_length. split; [lia |]. split; [lia |].
        assert (Hi : In (node_id nd) (seq 0 (length (nodes m)))) by (rewrite <- Hids; apply in_map; auto).
        apply in_seq in Hi. rewrite Enodes, map_length in Hi. lia.
      - rewrite Hids. apply seq_NoDup.
      - intros c Hc. rewrite Enc in Hc. destruct (F (Z.of_nat d - 1 - c)%Z ltac:(lia)) as (nd & H1 & H2).
        destruct (renum_in' l 0 nd H1) as (i & Hi).
        exists (with_column (with_id nd i) (Z.of_nat d - 1 - column (with_id nd i))%Z). split.
        + rewrite Enodes. apply (in_map (fun nd => with_column nd (Z.of_nat d - 1 - column nd)%Z)). auto.
        + cbn. lia. }
    split; [auto |]. split; [auto |]. split; [auto |].
    intros k Hk.
    assert (Hdk : d = k). { unfold d. rewrite Hk. apply Nat.log2_up_pow2. lia. }
    split; [rewrite Enc, Hdk; auto |].
    intros c Hc. change (2 * length (in_col c (nodes m)) = n).
    rewrite <- (map_length top), Hcolm, map_length by reflexivity. apply (N k Hk). lia.
Qed.

(** ** Bowtie *)
Lemma bowtie_rec_spec : forall fuel n r start layer, 1 <= n -> n <= fuel ->
  exists l, bowtie_rec fuel n r start layer = Some l /\ 2 * length l = n * (n - 1) /\
    (forall nd, In nd l -> start <= top nd /\ top nd < bottom nd /\ bottom nd < start + n /\ n_of nd = r /\ node_id nd = 0).
Proof.
  induction fuel as [| fuel IH]; intros n r start layer Hn Hf; [lia |].
  cbn [bowtie_rec]. set (m := n / 2) in *.
  destruct (Nat.eqb_spec n 1) as [En | En].
  - exists []. subst n. split; auto. split; [reflexivity | intros ? []].
  - pose proof (Nat.div_mod n 2 ltac:(lia)) as E. pose proof (Nat.mod_upper_bound n 2 ltac:(lia)) as E'. fold m in E.
    destruct (IH m r start (layer - Z.of_nat m)%Z ltac:(lia) ltac:(lia)) as (a & Ea & La & Ra).
    destruct (IH m r start (layer + Z.of_nat m)%Z ltac:(lia) ltac:(lia)) as (b & Eb & Lb & Rb).
    destruct (IH (n - m) r (start + m) (layer - Z.of_nat m)%Z ltac:(lia) ltac:(lia)) as (c & Ec & Lc & Rc).
    destruct (IH (n - m) r (start + m) (layer + Z.of_nat m)%Z ltac:(lia) ltac:(lia)) as (d & Ed & Ld & Rd).
    rewrite Ea. cbn [obind]. rewrite Eb. cbn [obind]. rewrite Ec. cbn [obind]. rewrite Ed. cbn [obind].
    eexists. split; [reflexivity |]. split.
    + rewrite !app_length, map_length, seq_length.
      remember (n mod 2) as q. assert (Hq : q = 0 \/ q = 1) by lia. destruct Hq as [-> | ->].
      * replace (n - m) with m in * by lia. nia.
      * replace (n - m) with (m + 1) in * by lia. nia.
    + intros nd H. repeat (apply in_app_or in H; destruct H as [H | H]).
      * apply in_map_iff in H. destruct H as (i & <- & Hi). apply in_seq in Hi. cbn [top bottom n_of node_id plain_node]. repeat split; lia.
      * specialize (Ra nd H). lia.
      * specialize (Rb nd H). lia.
      * specialize (Rc nd H). lia.
      * specialize (Rd nd H). lia.
Qed.
Lemma bowtie_count : forall n, 2 <= n ->
  exists l, bowtie_nodes n = Some l /\ 2 * length l = n * (n - 1) /\ (forall nd, In nd l -> top nd < bottom nd < n).
Proof.
  intros n Hn. destruct (bowtie_rec_spec n n n 0 (Z.of_nat n - 2) ltac:(lia) (le_n n)) as (l & E & L & R).
  exists l. split; [exact E |]. split; [exact L |]. intros nd H. specialize (R nd H). lia.
Qed.
Lemma bowtie4 : exists l m, bowtie_nodes 4 = Some l /\ mk_mesh l TOP = Some m /\ columns m = None.
Proof. eexists. eexists. split; [reflexivity |]. split; [reflexivity |]. reflexivity. Qed.
