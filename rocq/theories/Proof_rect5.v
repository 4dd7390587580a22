(** Proofs about Model_rect: the mesh that rectangular builds, its geometry and its matrix. *)
From Coq Require Import Reals List Arith ZArith Lra Lia Bool FunctionalExtensionality Permutation ZifyNat ZifyClasses.
From Verif Require Import Cx Arr Spec_circuit Model_coupling Model_forward Spec_mesh Model_rect Spec_rect Proof_node Proof_mesh Proof_forward Proof_forward2 Proof_forward3 Proof_forward4
  Proof_tree Proof_vector Proof_order Proof_linalg Proof_rect Proof_rect2 Proof_rect3 Proof_rect4.
Import ListNotations.
Local Open Scope R_scope.
Ltac Zify.zify_post_hook ::= Z.div_mod_to_equations.

(** ** The sensitivity indices are always defined *)
Lemma rectangular_alpha_length : forall len po, length (rectangular_alpha len po) = len.
Proof.
  intros len po. unfold rectangular_alpha. set (o := map (fun x => (len + 1 - x)%nat) (rev (map (fun t => (1 + 2 * t)%nat) (seq 0 ((len + 1) / 2))))).
  assert (Ho : length o = ((len + 1) / 2)%nat) by (unfold o; rewrite map_length, rev_length, map_length, seq_length; reflexivity).
  assert (E : length (o ++ map (fun x => (len + 1 - x)%nat) (map (fun t => (2 + 2 * t)%nat) (seq 0 (len - length o)))) = len).
  { rewrite app_length, !map_length, seq_length, Ho. lia. }
  destruct po; [rewrite rev_length |]; exact E.
Qed.
Lemma alpha_some : forall n i j, (i < n)%nat -> (j < n)%nat -> exists a, alpha_checkerboard n i j = Some a.
Proof.
  intros n i j Hi Hj. unfold alpha_checkerboard.
  destruct (Nat.ltb_spec i (n - 1)) as [H1 | H1]; cbn [andb]; [| eauto].
  destruct (Nat.ltb_spec j n) as [H2 | H2]; cbn [andb]; [| eauto].
  destruct (Nat.eqb_spec ((i + j) mod 2) 0) as [H3 | H3]; [| eauto]. cbv zeta.
  assert (B : (1 <= alpha_diagonal n i j <= n)%nat /\ (Nat.min i j < alpha_diagonal n i j)%nat).
  { unfold alpha_diagonal. destruct (Nat.ltb_spec i j) as [L | L]; [lia |].
    destruct (Nat.ltb_spec 0 i) as [L1 | L1]; destruct (Nat.ltb_spec j i) as [L2 | L2]; cbn [andb]; lia. }
  destruct (Nat.eqb_spec (alpha_diagonal n i j) 1) as [E | E]; [eauto |].
  destruct B as [B1 B2].
  assert (G : nth_error (map (fun l => rectangular_alpha l (Nat.eqb (n mod 2) 1)) (seq 1 n)) (alpha_diagonal n i j - 1) = Some (rectangular_alpha (alpha_diagonal n i j) (Nat.eqb (n mod 2) 1))).
  { erewrite map_nth_error; [reflexivity |]. rewrite (nth_error_nth' (seq 1 n) 0%nat) by (rewrite seq_length; lia). rewrite seq_nth by lia. f_equal. lia. }
  rewrite G. destruct (nth_error (rectangular_alpha (alpha_diagonal n i j) (Nat.eqb (n mod 2) 1)) (Nat.min i j)) as [a |] eqn:F; [eauto |].
  apply nth_error_None in F. rewrite rectangular_alpha_length in F. lia.
Qed.

(** ** Positions and ids *)
Definition rpos (n k : nat) : list (nat * nat) := flat_map (fun i => map (fun j => (i, j)) (seq 0 (num_to_interfere n i))) (seq 0 k).
Lemma rpos_S : forall n k, rpos n (S k) = rpos n k ++ map (fun j => (k, j)) (seq 0 (num_to_interfere n k)).
Proof. intros. unfold rpos. rewrite seq_S, flat_map_app. cbn [flat_map plus]. rewrite app_nil_r. reflexivity. Qed.
Lemma rpos_in : forall n k i j, In (i, j) (rpos n k) <-> (i < k /\ j < num_to_interfere n i)%nat.
Proof.
  intros n k i j. unfold rpos. rewrite in_flat_map. split.
  - intros (i' & Hi & H). apply in_seq in Hi. apply in_map_iff in H. destruct H as (j' & E & Hj). injection E as -> ->. apply in_seq in Hj. lia.
  - intros [Hi Hj]. exists i. split; [apply in_seq; lia |]. apply in_map_iff. exists j. split; [reflexivity | apply in_seq; lia].
Qed.
Lemma rect_offset_S : forall n k, rect_offset n (S k) = (rect_offset n k + num_to_interfere n k)%nat.
Proof.
  intros. unfold rect_offset. rewrite seq_S, map_app. cbn [map plus]. induction (map (num_to_interfere n) (seq 0 k)) as [| a l IH]; cbn [List.app fold_right]; lia.
Qed.
Definition pid (n : nat) (x : nat * nat) : nat := (rect_offset n (fst x) + snd x)%nat.
Lemma rpos_ids : forall n k, map (pid n) (rpos n k) = seq 0 (rect_offset n k).
Proof.
  intros n k. induction k as [| k IH]; [reflexivity |]. rewrite rpos_S, map_app, IH, rect_offset_S, seq_app. f_equal.
  rewrite map_map. unfold pid. cbn [fst snd plus].
  assert (G : forall a m, map (fun x => (a + x)%nat) (seq 0 m) = seq a m).
  { intros a m. induction m as [| m IHm]; [reflexivity |]. rewrite !seq_S, map_app, IHm. reflexivity. }
  apply G.
Qed.
Lemma rpos_length : forall n k, length (rpos n k) = rect_offset n k.
Proof. intros. rewrite <- (map_length (pid n)), rpos_ids, seq_length. reflexivity. Qed.
Lemma rpos_nth_id : forall n k x d, In x (rpos n k) -> nth (pid n x) (rpos n k) d = x.
Proof.
  intros n k x d H. apply (In_nth _ _ d) in H. destruct H as (i & Hi & E). rewrite <- E at 2. f_equal.
  assert (F : nth i (map (pid n) (rpos n k)) (pid n d) = pid n x) by (rewrite map_nth, E; reflexivity).
  rewrite rpos_ids, seq_nth in F by (rewrite <- rpos_length; exact Hi). lia.
Qed.
Lemma rpos_nth_f : forall (n k : nat) (f : nat * nat -> R) x, In x (rpos n k) -> nth (pid n x) (map f (rpos n k)) 0 = f x.
Proof.
  intros n k f x H. assert (L : (pid n x < length (rpos n k))%nat).
  { assert (I : In (pid n x) (map (pid n) (rpos n k))) by (apply in_map; exact H). rewrite rpos_ids in I. apply in_seq in I. rewrite rpos_length. lia. }
  rewrite (nth_indep _ 0 (f (0, 0)%nat)) by (rewrite map_length; exact L). rewrite map_nth, rpos_nth_id by exact H. reflexivity.
Qed.
Lemma rect_offset_total : forall n, (1 <= n)%nat -> (2 * rect_offset n n = n * (n - 1))%nat.
Proof.
  intros n Hn. assert (G : forall k, (2 * rect_offset n k = k * (n - 1) + (1 - n mod 2) * (k mod 2))%nat).
  { induction k as [| k IH]; [cbn; lia |]. rewrite rect_offset_S, Nat.mul_add_distr_l, IH. unfold num_to_interfere.
    assert (E : (S k * (n - 1) = k * (n - 1) + (n - 1))%nat) by lia. rewrite E.
    destruct (Nat.eq_dec (n mod 2) 0) as [E0 | E0].
    - rewrite E0. cbn [Nat.sub]. lia.
    - assert (E1 : (n mod 2 = 1)%nat) by lia. rewrite E1. lia. }
  rewrite G. destruct (Nat.eq_dec (n mod 2) 0) as [E0 | E0]; [rewrite E0; lia |]. assert (E1 : (n mod 2 = 1)%nat) by lia. rewrite E1. lia.
Qed.
Lemma num_rails : forall n i j, (j < num_to_interfere n i)%nat <-> (2 * j + 1 + i mod 2 < n)%nat.
Proof.
  intros n i j. unfold num_to_interfere. destruct (Nat.eq_dec (n mod 2) 0) as [E0 | E0].
  - rewrite E0. lia.
  - assert (E1 : (n mod 2 = 1)%nat) by lia. rewrite E1. lia.
Qed.

(** ** The nodes *)
Definition rnode (n : nat) (x : nat * nat) : node :=
  match rect_node n (fst x) (snd x) with Some nd => nd | None => ideal n 0 end.
Lemma rect_node_some : forall n i j, (i < n)%nat -> (j < num_to_interfere n i)%nat -> exists a,
  rect_node n i j = Some (mkNode (rect_offset n i + j) (0, 0) (0, 0) n (2 * j + i mod 2) (2 * j + 1 + i mod 2) 1 a (Z.of_nat i)).
Proof.
  intros n i j Hi Hj. apply num_rails in Hj. unfold rect_node, checkerboard_to_param.
  destruct (alpha_some n (2 * j + i mod 2) i ltac:(lia) Hi) as (a & ->). exists a. reflexivity.
Qed.
Lemma rnode_fields : forall n x, In x (rpos n n) ->
  rect_node n (fst x) (snd x) = Some (rnode n x) /\
  node_id (rnode n x) = pid n x /\ loss (rnode n x) = (0, 0) /\ bs_error (rnode n x) = (0, 0) /\ n_of (rnode n x) = n /\
  top (rnode n x) = (2 * snd x + fst x mod 2)%nat /\ bottom (rnode n x) = S (2 * snd x + fst x mod 2) /\ column (rnode n x) = Z.of_nat (fst x) /\
  (S (2 * snd x + fst x mod 2) < n)%nat /\ alpha (rnode n x) = 1%nat.
Proof.
  intros n [i j] H. apply rpos_in in H. destruct H as [Hi Hj]. cbn [fst snd]. destruct (rect_node_some n i j Hi Hj) as (a & E). unfold rnode. cbn [fst snd]. rewrite E.
  apply num_rails in Hj. cbn [node_id loss bs_error n_of top bottom column alpha]. unfold pid. cbn [fst snd]. repeat split; lia.
Qed.
Definition rnodes (n : nat) : list node := map (rnode n) (rpos n n).
Lemma rect_nodes_some : forall n, all_some (map (fun x => rect_node n (fst x) (snd x)) (rect_positions n)) = Some (rnodes n).
Proof.
  intro n. change (rect_positions n) with (rpos n n). unfold rnodes.
  assert (G : forall l, (forall x, In x l -> rect_node n (fst x) (snd x) = Some (rnode n x)) ->
     all_some (map (fun x => rect_node n (fst x) (snd x)) l) = Some (map (rnode n) l)).
  { induction l as [| a l IH]; intro H; [reflexivity |]. cbn [map all_some]. rewrite (H a) by (left; reflexivity). rewrite IH by (intros; apply H; right; auto). reflexivity. }
  apply G. intros x Hx. apply rnode_fields. exact Hx.
Qed.
Lemma rnodes_ids : forall n, map node_id (rnodes n) = seq 0 (rect_offset n n).
Proof.
  intro n. unfold rnodes. rewrite map_map. rewrite <- rpos_ids. apply map_ext_in. intros x Hx. apply rnode_fields. exact Hx.
Qed.
Lemma rnodes_nonempty : forall n, (2 <= n)%nat -> In (rnode n (0, 0)%nat) (rnodes n).
Proof. intros n Hn. unfold rnodes. apply in_map. apply rpos_in. split; [lia |]. apply num_rails. cbn. lia. Qed.
Definition rcols (n : nat) : nat := if Nat.eqb n 2 then 1%nat else n.
Lemma zmax_is : forall l d M, (forall x, In x l -> (x <= M)%Z) -> In M l -> (d <= M)%Z -> zmax l d = M.
Proof.
  intros l d M H HM Hd.
  assert (U : forall l, (forall x, In x l -> (x <= M)%Z) -> (zmax l d <= M)%Z) by (clear - Hd; induction l as [| a l IH]; intro H; cbn [zmax]; [exact Hd |]; specialize (IH ltac:(intros; apply H; right; auto)); pose proof (H a ltac:(left; auto)); lia).
  assert (L : forall l, In M l -> (M <= zmax l d)%Z) by (clear; induction l as [| a l IH]; intro H; [destruct H |]; cbn [zmax]; destruct H as [-> | H]; [lia | specialize (IH H); lia]).
  pose proof (U l H). pose proof (L l HM). lia.
Qed.
Definition rmesh (n : nat) : mesh :=
  mkMesh (rnodes n) TOP (map node_id (rnodes n)) n (map bs_error (rnodes n)) (map loss (rnodes n)) (map column (rnodes n)) (Z.of_nat (rcols n)).
Lemma rcols_in : forall n x, (2 <= n)%nat -> In x (rpos n n) -> (fst x < rcols n)%nat.
Proof.
  intros n [i j] Hn H. apply rpos_in in H. destruct H as [Hi Hj]. apply num_rails in Hj. cbn [fst]. unfold rcols. destruct (Nat.eqb_spec n 2); [subst; lia | lia].
Qed.
Lemma rcols_hit : forall n c, (2 <= n)%nat -> (c < rcols n)%nat -> In (c, 0%nat) (rpos n n).
Proof.
  intros n c Hn Hc. unfold rcols in Hc. apply rpos_in. rewrite num_rails. destruct (Nat.eqb_spec n 2); [subst | ]; lia.
Qed.
Lemma rmesh_made : forall n, (2 <= n)%nat -> mk_mesh (rnodes n) TOP = Some (rmesh n).
Proof.
  intros n Hn. unfold mk_mesh. destruct (rnodes n) as [| nd l] eqn:E; [pose proof (rnodes_nonempty n Hn) as H; rewrite E in H; destruct H |]. rewrite <- E.
  assert (R : renumber (rnodes n) = rnodes n) by (apply renumber_single; rewrite rnodes_ids; apply seq_NoDup). rewrite R.
  assert (I : In nd (rnodes n)) by (rewrite E; left; reflexivity). unfold rnodes in I. apply in_map_iff in I. destruct I as (x & Ex & Hx).
  destruct (rnode_fields n x Hx) as (_ & _ & _ & _ & F & _ & _ & C & _). rewrite Ex in F, C. rewrite F. unfold rmesh. do 2 f_equal.
  pose proof (rcols_in n x Hn Hx).
  rewrite (zmax_is _ _ (Z.of_nat (rcols n) - 1)%Z); [lia | | |].
  - intros z Hz. apply in_map_iff in Hz. destruct Hz as (nd' & <- & H'). unfold rnodes in H'. apply in_map_iff in H'. destruct H' as (x' & <- & Hx').
    destruct (rnode_fields n x' Hx') as (_ & _ & _ & _ & _ & _ & _ & C' & _). rewrite C'. pose proof (rcols_in n x' Hn Hx'). lia.
  - assert (Hp : In ((rcols n - 1)%nat, 0%nat) (rpos n n)) by (apply rcols_hit; lia).
    apply in_map_iff. exists (rnode n ((rcols n - 1)%nat, 0%nat)). split; [| unfold rnodes; apply in_map; exact Hp].
    destruct (rnode_fields n _ Hp) as (_ & _ & _ & _ & _ & _ & _ & C' & _). rewrite C'. cbn [fst]. lia.
  - rewrite C. lia.
Qed.

(** ** The mesh is well formed *)
Lemma flat_map_col : forall n k c, filter (fun x => Nat.eqb (fst x) c) (rpos n k) = if Nat.ltb c k then map (fun j => (c, j)) (seq 0 (num_to_interfere n c)) else [].
Proof.
  intros n k c. induction k as [| k IH]; [reflexivity |]. rewrite rpos_S, filter_app, IH.
  assert (G : filter (fun x => Nat.eqb (fst x) c) (map (fun j => (k, j)) (seq 0 (num_to_interfere n k))) = if Nat.eqb k c then map (fun j => (k, j)) (seq 0 (num_to_interfere n k)) else []).
  { generalize (seq 0 (num_to_interfere n k)). induction l as [| a l IHl]; cbn [map filter fst]; [destruct (Nat.eqb k c); reflexivity |]. rewrite IHl. destruct (Nat.eqb k c); reflexivity. }
  rewrite G. destruct (Nat.ltb_spec c k); destruct (Nat.ltb_spec c (S k)); destruct (Nat.eqb_spec k c); try lia; subst; cbn [List.app]; rewrite ?app_nil_r; reflexivity.
Qed.
Lemma filter_map_comm : forall (A B : Type) (f : A -> B) (g : B -> bool) l, filter g (map f l) = map f (filter (fun x => g (f x)) l).
Proof. intros A B f g l. induction l as [| a l IH]; [reflexivity |]. cbn [map filter]. destruct (g (f a)); cbn [map]; rewrite IH; reflexivity. Qed.
Lemma rnodes_col : forall n c, filter (fun nd => Z.eqb (column nd) (Z.of_nat c)) (rnodes n) =
  if Nat.ltb c n then map (fun j => rnode n (c, j)) (seq 0 (num_to_interfere n c)) else [].
Proof.
  intros n c. unfold rnodes. rewrite filter_map_comm.
  rewrite (filter_ext_in _ (fun x => Nat.eqb (fst x) c)).
  - rewrite flat_map_col. destruct (Nat.ltb c n); [rewrite map_map |]; reflexivity.
  - intros x Hx. destruct (rnode_fields n x Hx) as (_ & _ & _ & _ & _ & _ & _ & C & _). rewrite C.
    destruct (Z.eqb_spec (Z.of_nat (fst x)) (Z.of_nat c)); destruct (Nat.eqb_spec (fst x) c); lia || reflexivity.
Qed.
Lemma NoDup_tb : forall (f g : nat -> nat) m, (forall a b, (a < m)%nat -> (b < m)%nat -> f a = f b -> a = b) -> (forall a b, (a < m)%nat -> (b < m)%nat -> g a = g b -> a = b) ->
  (forall a b, (a < m)%nat -> (b < m)%nat -> f a <> g b) -> NoDup (map f (seq 0 m) ++ map g (seq 0 m)).
Proof.
  intros f g m Hf Hg Hfg.
  assert (NM : forall h : nat -> nat, (forall a b, (a < m)%nat -> (b < m)%nat -> h a = h b -> a = b) -> NoDup (map h (seq 0 m))).
  { intros h Hh. assert (G : forall k, (k <= m)%nat -> NoDup (map h (seq 0 k))).
    { induction k as [| k IH]; intro Hk; [constructor |]. rewrite seq_S, map_app. cbn [map plus].
      rewrite <- (rev_involutive (map h (seq 0 k) ++ [h k])). apply NoDup_rev. rewrite rev_app_distr. cbn [rev List.app]. constructor.
      - intro I. apply in_rev in I. apply in_map_iff in I. destruct I as (a & E & Ia). apply in_seq in Ia. apply Hh in E; lia.
      - apply NoDup_rev. apply IH. lia. }
    apply G. lia. }
  assert (GG : forall l1 l2 : list nat, NoDup l1 -> NoDup l2 -> (forall x, In x l1 -> ~ In x l2) -> NoDup (l1 ++ l2)).
  { induction l1 as [| a l1 IH]; intros l2 H1 H2 H3; [exact H2 |]. cbn [List.app]. inversion H1; subst. constructor.
    - intro I. apply in_app_or in I. destruct I as [I | I]; [contradiction | apply (H3 a); [left; reflexivity | exact I]].
    - apply IH; auto. intros x Ix. apply H3. right. exact Ix. }
  apply GG; [apply NM; exact Hf | apply NM; exact Hg |]. intros x I J. apply in_map_iff in I, J. destruct I as (a & <- & Ia), J as (b & E & Ib). apply in_seq in Ia, Ib. apply (Hfg a b); [lia | lia | auto].
Qed.
Lemma rmesh_wf : forall n, (2 <= n)%nat -> wf_mesh (rmesh n).
Proof.
  intros n Hn. unfold wf_mesh, rmesh. cbn [nodes n_rails bs_errors num_columns]. repeat split.
  - intro c. cbv zeta. destruct (Z_lt_ge_dec c 0) as [Lc | Lc].
    + assert (E : filter (fun nd => Z.eqb (column nd) c) (rnodes n) = []).
      { assert (G : forall l, (forall nd, In nd l -> (0 <= column nd)%Z) -> filter (fun nd => Z.eqb (column nd) c) l = []).
        { induction l as [| a l IH]; intro H; [reflexivity |]. cbn [filter]. pose proof (H a (or_introl eq_refl)). destruct (Z.eqb_spec (column a) c); [lia | apply IH; intros; apply H; right; auto]. }
        apply G. intros nd I. unfold rnodes in I. apply in_map_iff in I. destruct I as (x & <- & Hx). destruct (rnode_fields n x Hx) as (_ & _ & _ & _ & _ & _ & _ & C & _). lia. }
      rewrite E. constructor.
    + assert (Ec : c = Z.of_nat (Z.to_nat c)) by lia. rewrite Ec, rnodes_col. destruct (Nat.ltb_spec (Z.to_nat c) n) as [L | L]; [| constructor].
      set (k := Z.to_nat c) in *. rewrite !map_map.
      rewrite (map_ext_in _ (fun j => (2 * j + k mod 2)%nat)), (map_ext_in (fun x => bottom (rnode n (k, x))) (fun j => S (2 * j + k mod 2)%nat)).
      * apply NoDup_tb; intros; lia.
      * intros j Hj. apply in_seq in Hj. destruct (rnode_fields n (k, j)) as (_ & _ & _ & _ & _ & _ & B & _); [apply rpos_in; lia |]. exact B.
      * intros j Hj. apply in_seq in Hj. destruct (rnode_fields n (k, j)) as (_ & _ & _ & _ & _ & T & _); [apply rpos_in; lia |]. exact T.
  - unfold rnodes in H. apply in_map_iff in H. destruct H as (x & <- & Hx). destruct (rnode_fields n x Hx) as (_ & _ & _ & _ & _ & T & B & _ & L & _). lia.
  - unfold rnodes in H. apply in_map_iff in H. destruct H as (x & <- & Hx). destruct (rnode_fields n x Hx) as (_ & _ & _ & _ & _ & T & B & _ & L & _). lia.
  - rewrite map_length. assert (I : In (node_id nd) (map node_id (rnodes n))) by (apply in_map; exact H). rewrite rnodes_ids in I. apply in_seq in I.
    unfold rnodes. rewrite map_length, rpos_length. lia.
  - rewrite rnodes_ids. apply seq_NoDup.
  - intros c Hc. exists (rnode n (Z.to_nat c, 0%nat)). assert (Hp : In (Z.to_nat c, 0%nat) (rpos n n)) by (apply rcols_hit; lia).
    split; [unfold rnodes; apply in_map; exact Hp |]. destruct (rnode_fields n _ Hp) as (_ & _ & _ & _ & _ & _ & _ & C & _). rewrite C. cbn [fst]. lia.
Qed.
Lemma rmesh_order : forall n, (2 <= n)%nat -> in_order (rmesh n) = rnodes n.
Proof.
  intros n Hn. unfold in_order, rmesh. cbn [nodes num_columns]. rewrite Nat2Z.id.
  rewrite (map_ext_in _ (fun c => map (fun j => rnode n (c, j)) (seq 0 (num_to_interfere n c)))).
  - unfold rnodes, rpos. rewrite flat_map_concat_map, concat_map, map_map.
    rewrite (map_ext (fun x => map (rnode n) (map (fun j => (x, j)) (seq 0 (num_to_interfere n x)))) (fun c => map (fun j => rnode n (c, j)) (seq 0 (num_to_interfere n c)))) by (intro; apply map_map).
    unfold rcols. destruct (Nat.eqb_spec n 2) as [-> | N]; reflexivity.
  - intros c Hc. apply in_seq in Hc. rewrite rnodes_col. destruct (Nat.ltb_spec c n) as [L | L]; [reflexivity |]. unfold rcols in Hc. destruct (Nat.eqb_spec n 2); lia.
Qed.

(** ** One column of the mesh is one layer of the grid *)
Lemma col_run : forall (T P : nat -> R) (i m : nat) (w : vec) (r : nat),
  run (map (fun j => (zquad (T j) (P j), 2 * j + i mod 2, 2 * j + 1 + i mod 2)%nat) (seq 0 m)) w r =
  if evenb (r + i) then (if Nat.ltb r (2 * m + i mod 2) then za (T (r / 2)%nat) * (cis (P (r / 2)%nat) * w r) + zb (T (r / 2)%nat) * w (S r) else w r)%C
  else match r with
       | O => w r
       | S p => (if Nat.ltb p (2 * m + i mod 2) then zb (T (p / 2)%nat) * (cis (P (p / 2)%nat) * w p) + zd (T (p / 2)%nat) * w (S p) else w r)%C
       end.
Proof.
  intros T P i m w. induction m as [| m IH]; intro r.
  - cbn [seq map]. unfold run. cbn [fold_left]. destruct (evenb (r + i)) eqn:E.
    + apply evenb_t in E. destruct (Nat.ltb_spec r (2 * 0 + i mod 2)); [lia | reflexivity].
    + apply evenb_f in E. destruct r as [| p]; [reflexivity |]. destruct (Nat.ltb_spec p (2 * 0 + i mod 2)); [lia | reflexivity].
  - rewrite seq_S, map_app, run_app. cbn [map plus]. rewrite run_cons. change (run [] ?v) with v. set (s := (i mod 2)%nat) in *.
    set (p0 := (2 * m + s)%nat). replace (2 * m + 1 + s)%nat with (S p0) by (unfold p0; lia). rewrite apply_zquad.
    assert (Hs : (p0 / 2 = m)%nat) by (unfold p0, s; lia).
    assert (Ev : evenb (p0 + i) = true) by (apply evenb_t; unfold p0, s; lia).
    assert (W1 : run (map (fun j => (zquad (T j) (P j), (2 * j + s)%nat, (2 * j + 1 + s)%nat)) (seq 0 m)) w p0 = w p0).
    { rewrite IH, Ev. fold p0. destruct (Nat.ltb_spec p0 p0); [lia | reflexivity]. }
    assert (W2 : run (map (fun j => (zquad (T j) (P j), (2 * j + s)%nat, (2 * j + 1 + s)%nat)) (seq 0 m)) w (S p0) = w (S p0)).
    { rewrite IH. cbn [plus]. rewrite evenb_S, Ev. cbn [negb]. fold p0. destruct (Nat.ltb_spec p0 p0); [lia | reflexivity]. }
    destruct (Nat.eq_dec r p0) as [-> | N1]; [| destruct (Nat.eq_dec r (S p0)) as [-> | N2]].
    + rewrite nodeop_p, W1, W2, Ev, Hs, cis_0. destruct (Nat.ltb_spec p0 (2 * S m + s)); [ring | unfold p0 in *; lia].
    + rewrite nodeop_S, W1, W2, cis_0. cbn [plus]. rewrite evenb_S, Ev. cbn [negb]. rewrite Hs. destruct (Nat.ltb_spec p0 (2 * S m + s)); [ring | unfold p0 in *; lia].
    + rewrite nodeop_o by auto. rewrite IH. destruct (evenb (r + i)) eqn:E.
      * apply evenb_t in E. destruct (Nat.ltb_spec r (2 * m + s)); destruct (Nat.ltb_spec r (2 * S m + s)); try reflexivity; unfold p0, s in *; lia.
      * apply evenb_f in E. destruct r as [| p]; [reflexivity |]. destruct (Nat.ltb_spec p (2 * m + s)); destruct (Nat.ltb_spec p (2 * S m + s)); try reflexivity; unfold p0, s in *; lia.
Qed.
Section Mat.
Variables (n : nat) (th : nat -> nat -> R) (e : nat -> nat -> R).
Hypothesis Hn : (2 <= n)%nat.
Let ph := flow_phi n e.
Lemma ph_idle : forall c r, (evenb (r + c) && Nat.ltb (S r) n)%bool = false -> cis (ph c r) = C1.
Proof. intros c r H. unfold ph, flow_phi. rewrite cis_mod2pi. fold (fl_new n e c r). rewrite fl_new_out by exact H. apply cis_0. Qed.
Lemma layer_run : forall c w, (c < n)%nat ->
  run (map (fun j => (zquad (checkerboard_to_param th c j) (checkerboard_to_param (fun r c => ph c r) c j), 2 * j + c mod 2, 2 * j + 1 + c mod 2)%nat) (seq 0 (num_to_interfere n c))) w
  = grid_layer n (zblk th) ph c w.
Proof.
  intros c w Hc. apply functional_extensionality. intro r. rewrite col_run. unfold grid_layer, zblk, checkerboard_to_param. cbn [m11 m12 m21 m22]. fold (evenb (r + c)).
  assert (NB : forall p, evenb (p + c) = true -> Nat.ltb p (2 * num_to_interfere n c + c mod 2) = Nat.ltb (S p) n /\ (2 * (p / 2) + c mod 2 = p)%nat).
  { intros p E. apply evenb_t in E. assert (E2 : (2 * (p / 2) + c mod 2 = p)%nat) by lia. split; [| exact E2]. apply eq_true_iff_eq. rewrite !Nat.ltb_lt.
    pose proof (num_rails n c (p / 2)) as B. lia. }
  destruct (evenb (r + c)) eqn:E.
  - destruct (NB r E) as [-> E2]. rewrite E2. destruct (Nat.ltb_spec (S r) n) as [L | L].
    + rewrite (ph_idle c (S r)) by (cbn [plus]; rewrite evenb_S, E; reflexivity). ring.
    + rewrite (ph_idle c r) by (destruct (Nat.ltb_spec (S r) n); [lia | apply andb_false_r]). ring.
  - destruct r as [| p]; [rewrite (ph_idle c 0) by (rewrite E; reflexivity); ring |].
    assert (E' : evenb (p + c) = true) by (cbn [plus] in E; rewrite evenb_S in E; destruct (evenb (p + c)); [reflexivity | discriminate]).
    destruct (NB p E') as [-> E2]. rewrite E2. rewrite (ph_idle c (S p)) by (rewrite E; reflexivity).
    destruct (Nat.ltb_spec (S p) n) as [L | L]; ring.
Qed.
Variable p : params.
Hypothesis Ht : forall x, In x (rpos n n) -> thetas p (pid n x) = checkerboard_to_param th (fst x) (snd x).
Hypothesis Hp : forall x, In x (rpos n n) -> phis p (pid n x) = checkerboard_to_param (fun r c => ph c r) (fst x) (snd x).
Lemma mesh_run : forall k w, (k <= n)%nat -> run (node_ops TOP p (map (rnode n) (rpos n k))) w = grid_run n (zblk th) ph k w.
Proof.
  intros k. induction k as [| k IH]; intros w Hk; [reflexivity |]. rewrite rpos_S, map_app. unfold node_ops. rewrite map_app, run_app. fold (node_ops TOP p (map (rnode n) (rpos n k))).
  rewrite IH by lia. cbn [grid_run]. rewrite <- layer_run by lia. f_equal. rewrite !map_map. apply map_ext_in. intros j Hj. apply in_seq in Hj.
  assert (Hx : In (k, j) (rpos n n)) by (apply rpos_in; lia).
  destruct (rnode_fields n _ Hx) as (_ & I & _ & _ & _ & T & B & _). cbn [fst snd] in *. rewrite I, T, B, Ht, Hp by exact Hx. cbn [fst snd].
  unfold pn. rewrite zquad_mzi. do 2 f_equal. lia.
Qed.
End Mat.

Lemma rectangular_some : forall n u, (2 <= n)%nat -> rectangular n u =
  Some (rmesh n, mkParams (fun k => nth k (map (fun x => checkerboard_to_param (th_cb (rect_loop n u)) (fst x) (snd x)) (rpos n n)) 0)
    (fun k => nth k (map (fun x => checkerboard_to_param (fun r c => flow_phi n (rext n u) c r) (fst x) (snd x)) (rpos n n)) 0) (flow_gamma n n (rext n u))).
Proof.
  intros n u Hn. unfold rectangular, grid_common_mode_flow. cbv zeta. rewrite rect_nodes_some, rmesh_made by exact Hn. reflexivity.
Qed.
Lemma rectangular_matrix : forall n u m p, (2 <= n)%nat -> unitary n u -> rectangular n u = Some (m, p) ->
  forall v, exists y, matrix_fn m false p v = Some y /\ veq n y (app n u v).
Proof.
  intros n u m p Hn Hu E v. rewrite rectangular_some in E by exact Hn. injection E as <- <-.
  rewrite (zero_matrix TOP (rmesh n)).
  - eexists. split; [reflexivity |]. rewrite rmesh_order by exact Hn. cbn [gammas]. unfold rnodes.
    rewrite (mesh_run n (th_cb (rect_loop n u)) (rext n u) Hn) by (try lia; intros x Hx; cbn [thetas phis]; rewrite rpos_nth_f by exact Hx; reflexivity).
    intros r Hr. rewrite (rect_grid n u Hn Hu v r Hr). reflexivity.
  - apply rmesh_wf. exact Hn.
  - reflexivity.
  - intros e H. cbn [rmesh bs_errors] in H. apply in_map_iff in H. destruct H as (nd & <- & H). unfold rnodes in H. apply in_map_iff in H. destruct H as (x & <- & Hx). apply rnode_fields. exact Hx.
  - intros e H. cbn [rmesh losses] in H. apply in_map_iff in H. destruct H as (nd & <- & H). unfold rnodes in H. apply in_map_iff in H. destruct H as (x & <- & Hx). apply rnode_fields. exact Hx.
Qed.
