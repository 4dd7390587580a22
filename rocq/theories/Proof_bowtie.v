(** Column structure of the bowtie architecture for every size (C19). *)
From Coq Require Import Reals Lra Lia List ZArith Permutation Bool.
From Verif Require Import Cx Arr Spec_circuit Model_coupling Model_forward Model_vector Spec_mesh Spec_tree
  Proof_mesh Proof_forward Proof_forward2 Proof_tree Proof_butterfly Proof_columns Proof_rect5.
Import ListNotations.
Local Open Scope nat_scope.

Record bw (l : list node) (n r start : nat) (layer : Z) : Prop := {
  bw_ids : forall nd, In nd l -> node_id nd = 0;
  bw_range : forall nd, In nd l -> start <= top nd /\ top nd < bottom nd /\ bottom nd < start + n /\ n_of nd = r;
  bw_col : forall nd, In nd l -> (layer - (Z.of_nat n - 2) <= column nd <= layer + (Z.of_nat n - 2))%Z;
  bw_disj : forall c, NoDup (map top (in_col c l) ++ map bottom (in_col c l));
  bw_ext : 2 <= n -> (exists nd, In nd l /\ column nd = (layer - (Z.of_nat n - 2))%Z) /\ (exists nd, In nd l /\ column nd = (layer + (Z.of_nat n - 2))%Z);
  bw_even : Nat.even n = true -> 4 <= n -> forall nd, In nd l -> column nd <> (layer + 1)%Z;
  bw_odd : Nat.odd n = true -> 2 <= n -> forall k, (Z.abs k <= Z.of_nat n - 2)%Z -> exists nd, In nd l /\ column nd = (layer + k)%Z }.

Lemma even_half : forall n, Nat.even n = true -> n - n / 2 = n / 2.
Proof. intros n H. apply Nat.even_spec in H. destruct H as [q ->]. replace (2 * q) with (q * 2) by lia. rewrite Nat.div_mul by lia. lia. Qed.
Lemma odd_half : forall n, Nat.odd n = true -> n - n / 2 = S (n / 2).
Proof. intros n H. apply Nat.odd_spec in H. destruct H as [q ->]. replace (2 * q + 1) with (1 + q * 2) by lia. rewrite Nat.div_add by lia. change (1 / 2) with 0. lia. Qed.

Lemma bowtie_rec_bw : forall fuel n r start layer, 1 <= n -> n <= fuel ->
  exists l, bowtie_rec fuel n r start layer = Some l /\ bw l n r start layer.
Proof.
  induction fuel as [| fuel IH]; intros n r start layer Hn Hf; [lia |].
  cbn [bowtie_rec]. set (m := n / 2) in *.
  destruct (Nat.eqb_spec n 1) as [En | En].
  - exists []. split; auto. subst n. constructor.
    + intros ? [].
    + intros ? [].
    + intros ? [].
    + intros; constructor.
    + intro; lia.
    + intros; lia.
    + intros; lia.
  - assert (H2 : 2 <= n) by lia.
    pose proof (Nat.div_mod n 2 ltac:(lia)) as E. pose proof (Nat.mod_upper_bound n 2 ltac:(lia)) as E'. fold m in E.
    destruct (IH m r start (layer - Z.of_nat m)%Z ltac:(lia) ltac:(lia)) as (a & Ea & [Ia Ra Ca Da Xa Va Oa]).
    destruct (IH m r start (layer + Z.of_nat m)%Z ltac:(lia) ltac:(lia)) as (b & Eb & [Ib Rb Cb Db Xb Vb Ob]).
    destruct (IH (n - m) r (start + m) (layer - Z.of_nat m)%Z ltac:(lia) ltac:(lia)) as (c & Ec & [Ic Rc Cc Dc Xc Vc Oc]).
    destruct (IH (n - m) r (start + m) (layer + Z.of_nat m)%Z ltac:(lia) ltac:(lia)) as (d & Ed & [Id Rd Cd Dd Xd Vd Od]).
    rewrite Ea. cbn [obind]. rewrite Eb. cbn [obind]. rewrite Ec. cbn [obind]. rewrite Ed. cbn [obind].
    set (l0 := map _ (seq 0 m)). exists (l0 ++ a ++ b ++ c ++ d). split; [reflexivity |].
    assert (H0 : forall nd, In nd l0 -> exists i, i < m /\ nd = plain_node 0 r (start + i) (start + i + m) 1 1 layer).
    { intros nd H. unfold l0 in H. apply in_map_iff in H. destruct H as (i & <- & Hi). apply in_seq in Hi. exists i. split; [lia | auto]. }
    assert (C0c : in_col layer l0 = l0).
    { clear -H0. induction l0 as [| x l IH]; auto. unfold in_col in *. cbn [filter].
      destruct (H0 x (or_introl eq_refl)) as (i & Hi & Ea). rewrite IH by (intros; apply H0; right; auto).
      rewrite Ea at 1. cbn [column plain_node]. rewrite Z.eqb_refl. reflexivity. }
    assert (C0n : forall k, k <> layer -> in_col k l0 = []).
    { intros k Hk. apply in_col_none. intros nd H. destruct (H0 nd H) as (i & Hi & ->). cbn [column plain_node]. auto. }
    assert (La : forall nd, In nd a \/ In nd c -> (column nd < layer)%Z) by (intros nd [H | H]; [specialize (Ca nd H) | specialize (Cc nd H)]; lia).
    assert (Lb : forall nd, In nd b \/ In nd d -> (layer < column nd)%Z) by (intros nd [H | H]; [specialize (Cb nd H) | specialize (Cd nd H)]; lia).
    assert (S5 : forall nd, In nd (l0 ++ a ++ b ++ c ++ d) -> In nd l0 \/ In nd a \/ In nd b \/ In nd c \/ In nd d).
    { intros nd H. rewrite !in_app_iff in H. tauto. }
    assert (T5 : forall nd, In nd l0 \/ In nd a \/ In nd b \/ In nd c \/ In nd d -> In nd (l0 ++ a ++ b ++ c ++ d)).
    { intros nd H. rewrite !in_app_iff. tauto. }
    assert (Own : exists nd, In nd l0 /\ column nd = layer).
    { exists (plain_node 0 r (start + 0) (start + 0 + m) 1 1 layer). split; [| reflexivity]. unfold l0. apply in_map_iff. exists 0. split; [reflexivity |]. apply in_seq. lia. }
    constructor.
    + intros nd H. apply S5 in H. destruct H as [H | [H | [H | [H | H]]]]; auto. destruct (H0 nd H) as (i & Hi & ->). reflexivity.
    + intros nd H. apply S5 in H. destruct H as [H | [H | [H | [H | H]]]].
      * destruct (H0 nd H) as (i & Hi & ->). cbn [top bottom n_of column plain_node]. lia.
      * specialize (Ra nd H). lia.
      * specialize (Rb nd H). lia.
      * specialize (Rc nd H). lia.
      * specialize (Rd nd H). lia.
    + intros nd H. apply S5 in H. destruct H as [H | [H | [H | [H | H]]]].
      * destruct (H0 nd H) as (i & Hi & ->). cbn [top bottom n_of column plain_node]. lia.
      * specialize (Ca nd H). lia.
      * specialize (Cb nd H). lia.
      * specialize (Cc nd H). lia.
      * specialize (Cd nd H). lia.
    + intro k. rewrite !in_col_app. destruct (Z.lt_trichotomy k layer) as [L | [-> | L]].
      * rewrite C0n by lia.
        rewrite (in_col_none k b) by (intros nd H; pose proof (Lb nd (or_introl H)); lia).
        rewrite (in_col_none k d) by (intros nd H; pose proof (Lb nd (or_intror H)); lia).
        cbn [List.app]. rewrite app_nil_r. apply (disjoint_ranges (start + m)); auto.
        -- intros nd H. apply in_col_In in H. destruct (Ra nd (proj1 H)) as (q & q1 & q2 & _). lia.
        -- intros nd H. apply in_col_In in H. destruct (Rc nd (proj1 H)) as (q & q1 & q2 & _). lia.
      * rewrite (in_col_none layer a) by (intros nd H; pose proof (La nd (or_introl H)); lia).
        rewrite (in_col_none layer c) by (intros nd H; pose proof (La nd (or_intror H)); lia).
        rewrite (in_col_none layer b) by (intros nd H; pose proof (Lb nd (or_introl H)); lia).
        rewrite (in_col_none layer d) by (intros nd H; pose proof (Lb nd (or_intror H)); lia).
        rewrite C0c. cbn [List.app]. rewrite app_nil_r. unfold l0. rewrite !map_map. cbn [top bottom plain_node].
        apply NoDup_app_intro.
        -- apply FinFun.Injective_map_NoDup; [intros x y; lia | apply seq_NoDup].
        -- apply FinFun.Injective_map_NoDup; [intros x y; lia | apply seq_NoDup].
        -- intros x Hx Hy. apply in_map_iff in Hx, Hy. destruct Hx as (i & Ei & Hi). destruct Hy as (j & Ej & Hj).
           apply in_seq in Hi, Hj. lia.
      * rewrite C0n by lia.
        rewrite (in_col_none k a) by (intros nd H; pose proof (La nd (or_introl H)); lia).
        rewrite (in_col_none k c) by (intros nd H; pose proof (La nd (or_intror H)); lia).
        cbn [List.app]. apply (disjoint_ranges (start + m)); auto.
        -- intros nd H. apply in_col_In in H. destruct (Rb nd (proj1 H)) as (q & q1 & q2 & _). lia.
        -- intros nd H. apply in_col_In in H. destruct (Rd nd (proj1 H)) as (q & q1 & q2 & _). lia.
    + intros _. destruct (Nat.eq_dec n 2) as [E2 | E2].
      * destruct Own as (nd & H & Hc). split; exists nd; (split; [apply T5; auto | lia]).
      * destruct (Xc ltac:(lia)) as [(nd & H & Hc) _]. destruct (Xd ltac:(lia)) as [_ (nd' & H' & Hc')].
        split; [exists nd | exists nd']; (split; [apply T5; auto | lia]).
    + intros Ev H4 nd H. pose proof (even_half n Ev) as Eh. fold m in Eh. apply S5 in H. destruct H as [H | [H | [H | [H | H]]]].
      * destruct (H0 nd H) as (i & Hi & ->). cbn [top bottom n_of column plain_node]. lia.
      * specialize (Ca nd H). lia.
      * specialize (Cb nd H). lia.
      * specialize (Cc nd H). lia.
      * specialize (Cd nd H). lia.
    + intros Od' _ k Hk. pose proof (odd_half n Od') as Eh. fold m in Eh.
      assert (Half : forall x y lay, (forall nd, In nd x -> In nd (l0 ++ a ++ b ++ c ++ d)) -> (forall nd, In nd y -> In nd (l0 ++ a ++ b ++ c ++ d)) ->
        (Nat.odd m = true -> 2 <= m -> forall k, (Z.abs k <= Z.of_nat m - 2)%Z -> exists nd, In nd x /\ column nd = (lay + k)%Z) ->
        (2 <= n - m -> (exists nd, In nd y /\ column nd = (lay - (Z.of_nat (n - m) - 2))%Z) /\ (exists nd, In nd y /\ column nd = (lay + (Z.of_nat (n - m) - 2))%Z)) ->
        (Nat.odd (n - m) = true -> 2 <= n - m -> forall k, (Z.abs k <= Z.of_nat (n - m) - 2)%Z -> exists nd, In nd y /\ column nd = (lay + k)%Z) ->
        forall k, (Z.abs k <= Z.of_nat m - 1)%Z -> exists nd, In nd (l0 ++ a ++ b ++ c ++ d) /\ column nd = (lay + k)%Z).
      { intros x y lay Hx Hy Ox Xy Oy q Hq. destruct (Nat.odd m) eqn:Om.
        - destruct (Z_le_dec (Z.abs q) (Z.of_nat m - 2)) as [L | L].
          + destruct (Ox eq_refl ltac:(lia) q L) as (nd & A & B). exists nd. split; auto.
          + destruct (Xy ltac:(lia)) as [(nd & A & B) (nd' & A' & B')]. destruct (Z_lt_dec q 0); [exists nd | exists nd']; (split; [auto | lia]).
        - assert (Om' : Nat.odd (n - m) = true) by (rewrite Eh, Nat.odd_succ; unfold Nat.odd in Om; apply negb_false_iff in Om; exact Om).
          destruct (Oy Om' ltac:(lia) q ltac:(lia)) as (nd & A & B). exists nd. split; auto. }
      destruct (Z.lt_trichotomy k 0) as [L | [-> | L]].
      * destruct (Half a c (layer - Z.of_nat m)%Z ltac:(intros; apply T5; auto) ltac:(intros; apply T5; auto) Oa Xc Oc (k + Z.of_nat m)%Z ltac:(lia)) as (nd & A & B).
        exists nd. split; [auto | lia].
      * destruct Own as (nd & H & Hc). exists nd. split; [apply T5; auto | lia].
      * destruct (Half b d (layer + Z.of_nat m)%Z ltac:(intros; apply T5; auto) ltac:(intros; apply T5; auto 6) Ob Xd Od (k - Z.of_nat m)%Z ltac:(lia)) as (nd & A & B).
        exists nd. split; [auto | lia].
Qed.

Lemma all_some_none : forall (A : Type) (l : list (option A)), In None l -> all_some l = None.
Proof. induction l as [| [x |] l IH]; intros H; [destruct H | | reflexivity]. destruct H as [H | H]; [discriminate |]. cbn. rewrite IH; auto. Qed.

Lemma bowtie_mesh : forall n s, 2 <= n -> exists l m, bowtie_nodes n = Some l /\ mk_mesh l s = Some m /\
  style m = s /\ n_rails m = n /\ num_columns m = (2 * Z.of_nat n - 3)%Z /\ 2 * length (nodes m) = n * (n - 1) /\
  rails_disjoint (nodes m) /\ map node_id (nodes m) = seq 0 (length (nodes m)) /\
  (forall nd, In nd (nodes m) -> top nd < bottom nd < n /\ (0 <= column nd < num_columns m)%Z) /\
  (n = 2 \/ Nat.odd n = true -> wf_mesh m /\ exists cols, columns m = Some cols /\ length cols = 2 * n - 3) /\
  (Nat.even n = true -> 4 <= n -> columns m = None).
Proof.
  intros n s Hn. unfold bowtie_nodes.
  destruct (bowtie_rec_bw n n n 0 (Z.of_nat n - 2) ltac:(lia) (le_n n)) as (l & El & [I R Cc D X V O]).
  destruct (bowtie_rec_spec n n n 0 (Z.of_nat n - 2) ltac:(lia) (le_n n)) as (l' & El' & Len & _).
  assert (l' = l) by congruence. subst l'. exists l.
  destruct (X Hn) as [(ndl & Hl & Hcl) (ndr & Hr & Hcr)].
  destruct l as [| x l'] eqn:EL; [destruct Hl |]. rewrite <- EL in *.
  assert (Ecol : (zmax (map column l) (column x) + 1 = 2 * Z.of_nat n - 3)%Z).
  { rewrite (zmax_is _ _ (2 * Z.of_nat n - 4)%Z); [lia | | |].
    - intros c Hc. apply in_map_iff in Hc. destruct Hc as (nd & <- & Hnd). specialize (Cc nd Hnd). lia.
    - replace (2 * Z.of_nat n - 4)%Z with (column ndr) by lia. apply in_map. exact Hr.
    - assert (Hx : In x l) by (rewrite EL; left; auto). specialize (Cc x Hx). lia. }
  assert (Em : exists m, mk_mesh l s = Some m /\ nodes m = renum 0 l /\ style m = s /\ n_rails m = n /\ num_columns m = (2 * Z.of_nat n - 3)%Z /\ length (bs_errors m) = length l).
  { rewrite EL. unfold mk_mesh. eexists. split; [reflexivity |]. cbn [nodes style n_rails num_columns bs_errors]. rewrite <- EL.
    split; [apply renumber_renum; exact I |]. split; [reflexivity |]. split; [assert (Hx : In x l) by (rewrite EL; left; auto); apply (R x Hx) |].
    split; [exact Ecol | apply map_length]. }
  destruct Em as (m & Em & En & Es & Er & Enc & Ebe). exists m. split; [exact El |]. split; [exact Em |]. split; [exact Es |]. split; [exact Er |]. split; [exact Enc |].
  assert (Hlen : length (renum 0 l) = length l) by (unfold renum; rewrite map_length, combine_length, seq_length; lia).
  split; [rewrite En, Hlen; exact Len |].
  assert (Hdis : rails_disjoint (nodes m)).
  { intro c. rewrite En. change (NoDup (map top (in_col c (renum 0 l)) ++ map bottom (in_col c (renum 0 l)))).
    rewrite !renum_col by (intros [] ?; reflexivity). apply D. }
  assert (Hids : map node_id (nodes m) = seq 0 (length (nodes m))) by (rewrite En, Hlen; apply renum_ids).
  assert (Hrg : forall nd, In nd (nodes m) -> top nd < bottom nd < n /\ (0 <= column nd < num_columns m)%Z).
  { intros nd H. rewrite En in H. destruct (renum_in l 0 nd H) as (a & i & Ha & ->). cbn. destruct (R a Ha) as (? & ? & ? & _). specialize (Cc a Ha). lia. }
  split; [exact Hdis |]. split; [exact Hids |]. split; [exact Hrg |]. split.
  - intro Hodd. assert (Full : forall c, (0 <= c < num_columns m)%Z -> exists nd, In nd (nodes m) /\ column nd = c).
    { intros c Hc. rewrite Enc in Hc. assert (Hx : exists nd, In nd l /\ column nd = c).
      { destruct Hodd as [-> | Ho].
        - exists ndl. split; [exact Hl | lia].
        - destruct (O Ho Hn (c - (Z.of_nat n - 2))%Z ltac:(lia)) as (nd & A & B). exists nd. split; [exact A | lia]. }
      destruct Hx as (nd & A & B). destruct (renum_in' l 0 nd A) as (i & Hi). exists (with_id nd i). rewrite En. split; [exact Hi | exact B]. }
    split.
    + split; [exact Hdis |]. split; [| split; [rewrite Hids; apply seq_NoDup | exact Full]].
      intros nd H. rewrite Er, Ebe. pose proof (proj1 (Hrg nd H)). split; [lia |]. split; [lia |].
      assert (Hi : In (node_id nd) (seq 0 (length (nodes m)))) by (rewrite <- Hids; apply in_map; auto). apply in_seq in Hi. rewrite En, Hlen in Hi. lia.
    + destruct (columns_partition m) as (cols & Ec & Lc & _).
      { constructor; [rewrite Hids; apply seq_NoDup | intros nd H; apply (Hrg nd H) | exact Full]. }
      exists cols. split; [exact Ec |]. rewrite Lc, Enc. lia.
  - intros Hev H4. unfold columns. apply all_some_none. apply in_map_iff. exists (n - 1). split; [| rewrite Enc; apply in_seq; lia].
    assert (Ez : nodes_in_column (nodes m) (Z.of_nat (n - 1)) = []).
    { change (in_col (Z.of_nat (n - 1)) (nodes m) = []). apply in_col_none. intros nd H. rewrite En in H. destruct (renum_in l 0 nd H) as (a & i & Ha & ->). cbn.
      specialize (V Hev H4 a Ha). lia. }
    rewrite Ez. reflexivity.
Qed.
