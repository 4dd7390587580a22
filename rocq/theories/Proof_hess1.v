(** Vector units as binary trees: the value on the tree's last rail. *)
From Coq Require Import Reals Lra Lia List ZArith Bool Arith Permutation Sorted.
From Verif Require Import Cx Arr Model_coupling Model_forward Model_vector Spec_mesh Spec_tree
  Proof_node Proof_mesh Proof_forward Proof_forward2 Proof_forward3 Proof_vector.
Import ListNotations.
Local Open Scope R_scope.

Inductive bt : Type := Lf (r : nat) | Nd (nd : node) (T B : bt).
Fixpoint rail (t : bt) : nat := match t with Lf r => r | Nd _ _ B => rail B end.
Fixpoint leaves (t : bt) : list nat := match t with Lf r => [r] | Nd _ T B => leaves T ++ leaves B end.
Fixpoint tnodes (t : bt) : list node := match t with Lf _ => [] | Nd nd T B => nd :: tnodes T ++ tnodes B end.
Fixpoint shaped (t : bt) : Prop := match t with
  | Lf _ => True
  | Nd nd T B => top nd = rail T /\ bottom nd = rail B /\ (forall x, In x (tnodes T ++ tnodes B) -> (column x < column nd)%Z) /\ shaped T /\ shaped B end.
Definition quadof (p : params) (nd : node) : quad := pn TOP (thetas p (node_id nd)) (phis p (node_id nd)).
Fixpoint amp (p : params) (v : vec) (t : bt) : C := match t with
  | Lf r => v r
  | Nd nd T B => qbot (quadof p nd) (amp p v T) (amp p v B) end.

Lemma rail_leaf : forall t, In (rail t) (leaves t).
Proof. induction t as [r | nd T _ B IH]; cbn; [auto | apply in_or_app; auto]. Qed.
Lemma node_rails : forall t x, shaped t -> In x (tnodes t) -> In (top x) (leaves t) /\ In (bottom x) (leaves t).
Proof.
  induction t as [r | nd T IHT B IHB]; intros x Hs Hx; cbn in *; [tauto |]. destruct Hs as (E1 & E2 & _ & S1 & S2).
  destruct Hx as [<- | Hx].
  - rewrite E1, E2. split; apply in_or_app; [left | right]; apply rail_leaf.
  - apply in_app_or in Hx. destruct Hx as [Hx | Hx]; [destruct (IHT x S1 Hx) | destruct (IHB x S2 Hx)]; split; apply in_or_app; auto.
Qed.

Definition away (x : node) (t : bt) : Prop := ~ In (top x) (leaves t) /\ ~ In (bottom x) (leaves t).
Definition sorted (L : list node) : Prop := forall L1 x L2, L = L1 ++ x :: L2 -> forall y, In y L2 -> (column x <= column y)%Z.
Lemma sorted_app_l : forall L1 L2, sorted (L1 ++ L2) -> sorted L1.
Proof. intros L1 L2 H A x B E y Hy. apply (H A x (B ++ L2)); [rewrite E, <- app_assoc; reflexivity | apply in_or_app; auto]. Qed.
Lemma nodup_app_disj : forall (X : Type) (a b : list X) x, NoDup (a ++ b) -> In x a -> In x b -> False.
Proof.
  induction a as [| y a IH]; intros b x H Ha Hb; [destruct Ha |]. cbn in H. apply NoDup_cons_iff in H. destruct H as [Hn H].
  destruct Ha as [-> | Ha]; [apply Hn; apply in_or_app; auto | apply (IH b x H Ha Hb)].
Qed.

Section amps.
Variables (p : params) (v : vec).
Notation ops := (node_ops TOP p).

Lemma run_away : forall L i, (forall x, In x L -> top x <> i /\ bottom x <> i) -> run (ops L) v i = v i.
Proof. intros L i H. apply run_out. intros o Ho. unfold node_ops in Ho. apply in_map_iff in Ho. destruct Ho as (x & <- & Hx). apply (H x Hx). Qed.
Lemma run_away' : forall L w i, (forall x, In x L -> top x <> i /\ bottom x <> i) -> run (ops L) w i = w i.
Proof. intros L w i H. apply run_out. intros o Ho. unfold node_ops in Ho. apply in_map_iff in Ho. destruct Ho as (x & <- & Hx). apply (H x Hx). Qed.
Lemma ops_app : forall L1 L2, ops (L1 ++ L2) = ops L1 ++ ops L2.
Proof. intros. unfold node_ops. apply map_app. Qed.

Lemma amp_run : forall t, shaped t -> NoDup (leaves t) -> forall L, sorted L -> NoDup L ->
  (forall x, In x (tnodes t) -> In x L) -> (forall x, In x L -> In x (tnodes t) \/ away x t) ->
  run (ops L) v (rail t) = amp p v t.
Proof.
  induction t as [r | nd T IHT B IHB]; intros Hs Hnd L So NDL Hall Hother.
  - cbn [rail amp]. apply run_away. intros x Hx. destruct (Hother x Hx) as [[] | [H1 H2]]. split; intro Q; [apply H1 | apply H2]; rewrite Q; left; reflexivity.
  - cbn [shaped] in Hs. destruct Hs as (E1 & E2 & Hcol & S1 & S2). cbn [leaves] in Hnd. cbn [tnodes] in Hall, Hother.
    destruct (in_split nd L (Hall nd (or_introl eq_refl))) as (L1 & L2 & EL). subst L.
    assert (Nd1 : NoDup (leaves T)) by (apply NoDup_app_fst in Hnd; exact Hnd).
    assert (Nd2 : NoDup (leaves B)) by (apply NoDup_app_snd in Hnd; exact Hnd).
    assert (NL : NoDup L1) by (apply NoDup_app_fst in NDL; exact NDL).
    assert (In1 : forall x, In x (tnodes T ++ tnodes B) -> In x L1).
    { intros x Hx. specialize (Hall x (or_intror Hx)). apply in_app_or in Hall. destruct Hall as [H | [H | H]]; [exact H | |].
      - subst x. specialize (Hcol nd Hx). lia.
      - specialize (So L1 nd L2 eq_refl x H). specialize (Hcol x Hx). lia. }
    assert (Ndn : ~ In nd L1).
    { intro K. apply (nodup_app_disj _ L1 (nd :: L2) nd NDL K). left. reflexivity. }
    assert (VT : run (ops L1) v (rail T) = amp p v T).
    { apply IHT; [exact S1 | exact Nd1 | apply (sorted_app_l _ _ So) | exact NL | intros x Hx; apply In1; apply in_or_app; auto |].
      intros x Hx. destruct (Hother x) as [[K | K] | [K1 K2]]; [apply in_or_app; auto | congruence | |].
      - apply in_app_or in K. destruct K as [K | K]; [auto |]. right. destruct (node_rails B x S2 K) as [R1 R2].
        split; intro Q; [apply (nodup_app_disj _ _ _ _ Hnd Q R1) | apply (nodup_app_disj _ _ _ _ Hnd Q R2)].
      - right. split; intro Q; [apply K1 | apply K2]; cbn; apply in_or_app; auto. }
    assert (VB : run (ops L1) v (rail B) = amp p v B).
    { apply IHB; [exact S2 | exact Nd2 | apply (sorted_app_l _ _ So) | exact NL | intros x Hx; apply In1; apply in_or_app; auto |].
      intros x Hx. destruct (Hother x) as [[K | K] | [K1 K2]]; [apply in_or_app; auto | congruence | |].
      - apply in_app_or in K. destruct K as [K | K]; [| auto]. right. destruct (node_rails T x S1 K) as [R1 R2].
        split; intro Q; [apply (nodup_app_disj _ _ _ _ Hnd R1 Q) | apply (nodup_app_disj _ _ _ _ Hnd R2 Q)].
      - right. split; intro Q; [apply K1 | apply K2]; cbn; apply in_or_app; auto. }
    rewrite ops_app, run_app. change (ops (nd :: L2)) with ((quadof p nd, top nd, bottom nd) :: ops L2). rewrite run_cons.
    cbn [rail amp]. rewrite run_away'.
    + rewrite <- E2. rewrite apply_op_bot. rewrite E1, E2, VT, VB. reflexivity.
    + intros x Hx. assert (HxL : In x (L1 ++ nd :: L2)) by (apply in_or_app; right; right; exact Hx).
      destruct (Hother x HxL) as [[K | K] | [K1 K2]].
      * exfalso. subst x. apply NoDup_app_snd in NDL. apply NoDup_cons_iff in NDL. tauto.
      * exfalso. apply (nodup_app_disj _ L1 (nd :: L2) x NDL (In1 x K)). right. exact Hx.
      * assert (Hr : In (rail B) (leaves (Nd nd T B))) by (cbn; apply in_or_app; right; apply rail_leaf).
        split; intro Q; [apply K1 | apply K2]; rewrite Q; exact Hr.
Qed.
End amps.

(** Subtrees. *)
Fixpoint every (Q : node -> bt -> bt -> Prop) (t : bt) : Prop := match t with
  | Lf _ => True
  | Nd nd T B => Q nd T B /\ every Q T /\ every Q B end.
Lemma every_impl : forall (Q Q' : node -> bt -> bt -> Prop) t, (forall nd T B, Q nd T B -> Q' nd T B) -> every Q t -> every Q' t.
Proof. intros Q Q' t H. induction t as [r | nd T IHT B IHB]; cbn; [auto |]. intros (H1 & H2 & H3). auto. Qed.
Lemma every_and : forall (Q Q' : node -> bt -> bt -> Prop) t, every Q t -> every Q' t -> every (fun nd T B => Q nd T B /\ Q' nd T B) t.
Proof. intros Q Q' t. induction t as [r | nd T IHT B IHB]; cbn; [auto |]. intros (H1 & H2 & H3) (K1 & K2 & K3). auto. Qed.

Section sub.
Variable L : list node.
(** Inside a tree whose nodes are L: what may touch the rails of a subtree. *)
Definition local (nd : node) (T B : bt) : Prop := shaped (Nd nd T B) /\ NoDup (leaves (Nd nd T B)) /\
  (forall x, In x (tnodes (Nd nd T B)) -> In x L) /\
  (forall x, In x L -> In x (tnodes (Nd nd T B)) \/ away x (Nd nd T B) \/ (column nd < column x)%Z).
Lemma local_sub : forall t, shaped t -> NoDup (leaves t) -> (forall x, In x (tnodes t) -> In x L) ->
  match t with Lf _ => True | Nd nd _ _ => forall x, In x L -> In x (tnodes t) \/ away x t \/ (column nd < column x)%Z end -> every local t.
Proof.
  induction t as [r | nd T IHT B IHB]; intros Hs Hnd Hin Hout; [exact I |].
  split; [repeat split; try assumption; apply Hs |].
  cbn [shaped] in Hs. destruct Hs as (E1 & E2 & Hcol & S1 & S2). cbn [leaves] in Hnd. split.
  - apply IHT; [exact S1 | apply NoDup_app_fst in Hnd; exact Hnd | intros x Hx; apply Hin; cbn; right; apply in_or_app; auto |].
    destruct T as [r | nd' T1 T2]; [exact I |]. intros x Hx.
    assert (Hc : (column nd' < column nd)%Z) by (apply Hcol; apply in_or_app; left; left; reflexivity).
    destruct (Hout x Hx) as [K | [[K1 K2] | K]].
    + change (In x (nd :: tnodes (Nd nd' T1 T2) ++ tnodes B)) in K. destruct K as [<- | K]; [auto |]. apply in_app_or in K. destruct K as [K | K]; [auto |].
      right. left. destruct (node_rails B x S2 K) as [R1 R2].
      split; intro Q; [apply (nodup_app_disj _ _ _ _ Hnd Q R1) | apply (nodup_app_disj _ _ _ _ Hnd Q R2)].
    + right. left. split; intro Q; [apply K1 | apply K2]; apply (in_or_app (leaves (Nd nd' T1 T2)) (leaves B)); auto.
    + right. right. lia.
  - apply IHB; [exact S2 | apply NoDup_app_snd in Hnd; exact Hnd | intros x Hx; apply Hin; cbn; right; apply in_or_app; auto |].
    destruct B as [r | nd' B1 B2]; [exact I |]. intros x Hx.
    assert (Hc : (column nd' < column nd)%Z) by (apply Hcol; apply in_or_app; right; left; reflexivity).
    destruct (Hout x Hx) as [K | [[K1 K2] | K]].
    + change (In x (nd :: tnodes T ++ tnodes (Nd nd' B1 B2))) in K. destruct K as [<- | K]; [auto |]. apply in_app_or in K. destruct K as [K | K]; [| auto].
      right. left. destruct (node_rails T x S1 K) as [R1 R2].
      split; intro Q; [apply (nodup_app_disj _ _ _ _ Hnd R1 Q) | apply (nodup_app_disj _ _ _ _ Hnd R2 Q)].
    + right. left. split; intro Q; [apply K1 | apply K2]; apply (in_or_app (leaves T) (leaves (Nd nd' B1 B2))); auto.
    + right. right. lia.
Qed.
Variables (p : params) (v : vec).
Notation ops := (node_ops TOP p).
Hypothesis So : sorted L.
Hypothesis ND : NoDup L.
(** The rails of a node before its column (done: all earlier columns) and the bottom rail after it. *)
Lemma local_before : forall nd T B done rest, local nd T B -> L = done ++ rest -> (forall x, In x done -> (column x < column nd)%Z) ->
  (forall x, In x rest -> (column nd <= column x)%Z) -> run (ops done) v (top nd) = amp p v T /\ run (ops done) v (bottom nd) = amp p v B.
Proof.
  intros nd T B done rest (Hs & Hnd & Hin & Hout) EL Hd Hr. cbn [shaped] in Hs. destruct Hs as (E1 & E2 & Hcol & S1 & S2). cbn [leaves] in Hnd.
  assert (NDd : NoDup done) by (rewrite EL in ND; apply NoDup_app_fst in ND; exact ND).
  assert (Sd : sorted done) by (rewrite EL in So; apply (sorted_app_l _ _ So)).
  assert (In1 : forall x, In x (tnodes T ++ tnodes B) -> In x done).
  { intros x Hx. assert (K : In x L) by (apply Hin; right; exact Hx). rewrite EL in K. apply in_app_or in K. destruct K as [K | K]; [exact K |].
    specialize (Hr x K). specialize (Hcol x Hx). lia. }
  rewrite E1, E2. split.
  - apply amp_run; [exact S1 | apply NoDup_app_fst in Hnd; exact Hnd | exact Sd | exact NDd | intros x Hx; apply In1; apply in_or_app; auto |].
    intros x Hx. specialize (Hd x Hx). destruct (Hout x) as [K | [[K1 K2] | K]]; [rewrite EL; apply in_or_app; auto | | | lia].
    + destruct K as [<- | K]; [lia |]. apply in_app_or in K. destruct K as [K | K]; [auto |]. right. destruct (node_rails B x S2 K) as [R1 R2].
      split; intro Q; [apply (nodup_app_disj _ _ _ _ Hnd Q R1) | apply (nodup_app_disj _ _ _ _ Hnd Q R2)].
    + right. split; intro Q; [apply K1 | apply K2]; apply in_or_app; auto.
  - apply amp_run; [exact S2 | apply NoDup_app_snd in Hnd; exact Hnd | exact Sd | exact NDd | intros x Hx; apply In1; apply in_or_app; auto |].
    intros x Hx. specialize (Hd x Hx). destruct (Hout x) as [K | [[K1 K2] | K]]; [rewrite EL; apply in_or_app; auto | | | lia].
    + destruct K as [<- | K]; [lia |]. apply in_app_or in K. destruct K as [K | K]; [| auto]. right. destruct (node_rails T x S1 K) as [R1 R2].
      split; intro Q; [apply (nodup_app_disj _ _ _ _ Hnd R1 Q) | apply (nodup_app_disj _ _ _ _ Hnd R2 Q)].
    + right. split; intro Q; [apply K1 | apply K2]; apply in_or_app; auto.
Qed.
Lemma local_after : forall nd T B done rest, local nd T B -> L = done ++ rest -> (forall x, In x done -> (column x <= column nd)%Z) ->
  (forall x, In x rest -> (column nd < column x)%Z) -> run (ops done) v (bottom nd) = amp p v (Nd nd T B).
Proof.
  intros nd T B done rest (Hs & Hnd & Hin & Hout) EL Hd Hr. pose proof Hs as Hs'. cbn [shaped] in Hs'. destruct Hs' as (E1 & E2 & Hcol & S1 & S2).
  rewrite E2. change (rail B) with (rail (Nd nd T B)).
  apply amp_run; [exact Hs | exact Hnd | rewrite EL in So; apply (sorted_app_l _ _ So) | rewrite EL in ND; apply NoDup_app_fst in ND; exact ND | |].
  - intros x Hx. assert (K : In x L) by (apply Hin; exact Hx). rewrite EL in K. apply in_app_or in K. destruct K as [K | K]; [exact K |].
    specialize (Hr x K). destruct Hx as [<- | Hx]; [lia |]. specialize (Hcol x Hx). lia.
  - intros x Hx. specialize (Hd x Hx). destruct (Hout x) as [K | [K | K]]; [rewrite EL; apply in_or_app; auto | auto | auto | lia].
Qed.
End sub.
