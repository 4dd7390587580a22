(** Proofs about Model_rect: meshes on a checkerboard, insertion of nodes at either end, cuts, common mode flow. *)
From Coq Require Import Reals List Arith ZArith Lra Lia Bool FunctionalExtensionality ZifyNat ZifyClasses.
From Verif Require Import Cx Arr Model_coupling Model_forward Model_rect.
Import ListNotations.
Local Open Scope R_scope.
Ltac Zify.zify_post_hook ::= Z.div_mod_to_equations.

(** The internal MZI (theta only): top' = a top + b bottom, bottom' = b top + d bottom. *)
Definition za (t : R) : C := ((cis t - C1) / RtoC 2)%C.
Definition zb (t : R) : C := (Ci * (C1 + cis t) / RtoC 2)%C.
Definition zd (t : R) : C := ((C1 - cis t) / RtoC 2)%C.

Definition evenb (k : nat) : bool := Nat.eqb (k mod 2) 0.
Lemma evenb_t : forall k, evenb k = true <-> (k mod 2 = 0)%nat.
Proof. intros. unfold evenb. apply Nat.eqb_eq. Qed.
Lemma evenb_f : forall k, evenb k = false <-> (k mod 2 = 1)%nat.
Proof. intros. unfold evenb. rewrite Nat.eqb_neq. lia. Qed.
Lemma evenb_S : forall k, evenb (S k) = negb (evenb k).
Proof.
  intro k. destruct (evenb k) eqn:E.
  - change (negb true) with false. apply evenb_f. apply evenb_t in E. lia.
  - change (negb false) with true. apply evenb_t. apply evenb_f in E. lia.
Qed.
Arguments evenb : simpl never.

(** Column c of a board: node (p, c) with p + c even, present where [pr p c]. *)
Definition colop (pr : nat -> nat -> bool) (th : nat -> nat -> R) (c : nat) (v : vec) : vec := fun r =>
  if evenb (r + c) then (if pr r c then za (th r c) * v r + zb (th r c) * v (S r) else v r)%C
  else match r with
       | O => v r
       | S p => (if pr p c then zb (th p c) * v p + zd (th p c) * v (S p) else v r)%C
       end.
Definition phop (ph : nat -> nat -> R) (c : nat) (v : vec) : vec := fun r => (cis (ph r c) * v r)%C.
Fixpoint runb (pr : nat -> nat -> bool) (th ph : nat -> nat -> R) (k : nat) (v : vec) : vec :=
  match k with O => v | S k' => colop pr th k' (phop ph k' (runb pr th ph k' v)) end.
Definition runf (n : nat) (pr : nat -> nat -> bool) (th ph : nat -> nat -> R) (v : vec) : vec := phop ph n (runb pr th ph n v).

(** One node with input phase x on its top rail and output phases y, z. *)
Definition nodeop (p : nat) (t x y z : R) (v : vec) : vec := fun r =>
  if Nat.eqb r p then (cis y * (za t * (cis x * v p) + zb t * v (S p)))%C
  else if Nat.eqb r (S p) then (cis z * (zb t * (cis x * v p) + zd t * v (S p)))%C
  else v r.
Lemma nodeop_p : forall p t x y z v, nodeop p t x y z v p = (cis y * (za t * (cis x * v p) + zb t * v (S p)))%C.
Proof. intros. unfold nodeop. rewrite Nat.eqb_refl. reflexivity. Qed.
Lemma nodeop_S : forall p t x y z v, nodeop p t x y z v (S p) = (cis z * (zb t * (cis x * v p) + zd t * v (S p)))%C.
Proof. intros. unfold nodeop. destruct (Nat.eqb_spec (S p) p); [lia |]. rewrite Nat.eqb_refl. reflexivity. Qed.
Lemma nodeop_o : forall p t x y z v r, r <> p -> r <> S p -> nodeop p t x y z v r = v r.
Proof. intros. unfold nodeop. destruct (Nat.eqb_spec r p); [lia |]. destruct (Nat.eqb_spec r (S p)); [lia |]. reflexivity. Qed.

(** Rails p and p + 1 are not touched by column c. *)
Definition free_col (pr : nat -> nat -> bool) (p c : nat) : Prop :=
  (forall q, S q = p -> pr q c = false) /\ pr p c = false /\ pr (S p) c = false.
Definition free_ph (ph : nat -> nat -> R) (p c : nat) : Prop := ph p c = 0 /\ ph (S p) c = 0.

Lemma phop0 : forall ph c v r, ph r c = 0 -> phop ph c v r = v r.
Proof. intros. unfold phop. rewrite H, cis_0. ring. Qed.
Lemma colop_free_p : forall pr th c v p, free_col pr p c -> colop pr th c v p = v p.
Proof.
  intros pr th c v p (H1 & H2 & H3). unfold colop. destruct (evenb (p + c)); [rewrite H2; reflexivity |].
  destruct p as [| q]; [reflexivity |]. rewrite (H1 q eq_refl). reflexivity.
Qed.
Lemma colop_free_S : forall pr th c v p, free_col pr p c -> colop pr th c v (S p) = v (S p).
Proof.
  intros pr th c v p (H1 & H2 & H3). unfold colop. destruct (evenb (S p + c)); [rewrite H3; reflexivity |]. rewrite H2. reflexivity.
Qed.
Lemma colop_ext_at : forall pr th c v w r, v r = w r -> (evenb (r + c) = true -> pr r c = true -> v (S r) = w (S r)) ->
  (forall q, r = S q -> evenb (r + c) = false -> pr q c = true -> v q = w q) -> colop pr th c v r = colop pr th c w r.
Proof.
  intros pr th c v w r H0 H1 H2. unfold colop. destruct (evenb (r + c)) eqn:E.
  - destruct (pr r c) eqn:P; rewrite ?H0, ?H1; auto.
  - destruct r as [| q]; [exact H0 |]. destruct (pr q c) eqn:P; [rewrite (H2 q), H0 | exact H0]; auto.
Qed.
(** A node commutes with a column that does not touch its rails. *)
Lemma col_node_comm : forall pr th c p t x y z v, free_col pr p c ->
  colop pr th c (nodeop p t x y z v) = nodeop p t x y z (colop pr th c v).
Proof.
  intros pr th c p t x y z v HF. apply functional_extensionality. intro r.
  destruct (Nat.eq_dec r p) as [-> | N1]; [| destruct (Nat.eq_dec r (S p)) as [-> | N2]].
  - rewrite colop_free_p by auto. rewrite !nodeop_p. rewrite colop_free_p, colop_free_S by auto. reflexivity.
  - rewrite colop_free_S by auto. rewrite !nodeop_S. rewrite colop_free_p, colop_free_S by auto. reflexivity.
  - rewrite (nodeop_o p t x y z (colop pr th c v)) by auto. destruct HF as (H1 & H2 & H3). apply colop_ext_at.
    + apply nodeop_o; auto.
    + intros _ P. apply nodeop_o; intro E; [rewrite (H1 r E) in P; discriminate | injection E as ->; contradiction].
    + intros q -> _ P. apply nodeop_o; intro E; [subst; congruence | subst; congruence].
Qed.
Lemma ph_node_comm : forall ph c p t x y z v, free_ph ph p c -> phop ph c (nodeop p t x y z v) = nodeop p t x y z (phop ph c v).
Proof.
  intros ph c p t x y z v [H1 H2]. apply functional_extensionality. intro r. unfold phop, nodeop.
  destruct (Nat.eqb_spec r p) as [-> | N1]; [rewrite H1, H2, cis_0; ring |].
  destruct (Nat.eqb_spec r (S p)) as [-> | N2]; [rewrite H1, H2, cis_0; ring | reflexivity].
Qed.
Lemma runb_ext : forall pr th ph pr' th' ph' k v,
  (forall r c, (c < k)%nat -> pr' r c = pr r c /\ (pr r c = true -> th' r c = th r c) /\ ph' r c = ph r c) ->
  runb pr' th' ph' k v = runb pr th ph k v.
Proof.
  intros pr th ph pr' th' ph' k. induction k as [| k IH]; intros v H; [reflexivity |]. cbn [runb].
  rewrite IH by (intros; apply H; lia). apply functional_extensionality. intro r.
  assert (HP : phop ph' k (runb pr th ph k v) = phop ph k (runb pr th ph k v)).
  { apply functional_extensionality. intro r'. unfold phop. destruct (H r' k ltac:(lia)) as (_ & _ & ->). reflexivity. }
  rewrite HP. unfold colop. destruct (H r k ltac:(lia)) as (E & T & _). destruct (evenb (r + k)).
  - rewrite E. destruct (pr r k) eqn:P; [rewrite T by auto; reflexivity | reflexivity].
  - destruct r as [| q]; [reflexivity |]. destruct (H q k ltac:(lia)) as (E' & T' & _). rewrite E'. destruct (pr q k) eqn:P; [rewrite T' by auto; reflexivity | reflexivity].
Qed.

(** The board with a node (p, c) added, input phase x at (p, c). *)
Section InsertEnd.
Variables (pr pr' : nat -> nat -> bool) (th th' ph ph' : nat -> nat -> R) (n p c : nat) (t x : R).
Hypothesis Hpar : evenb (p + c) = true.
Hypothesis Hc : (c < n)%nat.
Hypothesis Hpr : forall r k, pr' r k = (if (Nat.eqb r p && Nat.eqb k c)%bool then true else pr r k).
Hypothesis Hth : forall r k, pr' r k = true -> th' r k = (if (Nat.eqb r p && Nat.eqb k c)%bool then t else th r k).
Hypothesis Hph : forall r k, ph' r k = (if (Nat.eqb r p && Nat.eqb k c)%bool then x else ph r k).
Hypothesis Hfree : forall k, (c <= k)%nat -> free_col pr p k.
Hypothesis Hfph : forall k, (c <= k)%nat -> free_ph ph p k.

Lemma ie_old : forall r k, (r <> p \/ k <> c) -> pr' r k = pr r k /\ (pr r k = true -> th' r k = th r k) /\ ph' r k = ph r k.
Proof.
  intros r k H. assert (E : (Nat.eqb r p && Nat.eqb k c)%bool = false). { destruct (Nat.eqb_spec r p), (Nat.eqb_spec k c); cbn; auto; lia. }
  assert (E' : pr' r k = pr r k) by (rewrite Hpr, E; reflexivity). split; [exact E' |]. split; [| rewrite Hph, E; reflexivity].
  intro P. rewrite Hth, E by congruence. reflexivity.
Qed.
Lemma ie_new : pr' p c = true /\ th' p c = t /\ ph' p c = x.
Proof. assert (P : pr' p c = true) by (rewrite Hpr, !Nat.eqb_refl; reflexivity). rewrite Hth, Hph, !Nat.eqb_refl by exact P. auto. Qed.
Lemma ie_before : forall v, runb pr' th' ph' c v = runb pr th ph c v.
Proof. intro v. apply runb_ext. intros r k Hk. apply ie_old. lia. Qed.
Lemma ie_at : forall v, runb pr' th' ph' (S c) v = nodeop p t x 0 0 (runb pr th ph (S c) v).
Proof.
  intro v. cbn [runb]. rewrite ie_before. set (w := runb pr th ph c v). apply functional_extensionality. intro r.
  destruct ie_new as (N1 & N2 & N3). destruct (Hfph c (le_n c)) as [F1 F2]. pose proof (Hfree c (le_n c)) as HF.
  assert (Hx : phop ph' c w p = (cis x * w p)%C) by (unfold phop; rewrite N3; reflexivity).
  assert (Hy : phop ph' c w (S p) = w (S p)) by (unfold phop; destruct (ie_old (S p) c ltac:(lia)) as (_ & _ & ->); rewrite F2, cis_0; ring).
  destruct (Nat.eq_dec r p) as [-> | R1]; [| destruct (Nat.eq_dec r (S p)) as [-> | R2]].
  - rewrite nodeop_p, (colop_free_p pr), (colop_free_S pr), !(phop0 ph) by auto. unfold colop. rewrite Hpar, N1, N2, Hx, Hy, cis_0. ring.
  - rewrite nodeop_S, (colop_free_p pr), (colop_free_S pr), !(phop0 ph) by auto. unfold colop. cbn [plus]. rewrite evenb_S, Hpar. cbn [negb].
    rewrite N1, N2, Hx, Hy, cis_0. ring.
  - rewrite nodeop_o by auto.
    assert (HP : forall r', r' <> p -> phop ph' c w r' = phop ph c w r') by (intros r' H; unfold phop; destruct (ie_old r' c ltac:(lia)) as (_ & _ & ->); reflexivity).
    unfold colop. destruct (evenb (r + c)) eqn:E.
    + destruct (ie_old r c ltac:(lia)) as (E1 & E2 & _). rewrite E1. destruct (pr r c) eqn:P; [| apply HP; auto].
      assert (S r <> p). { intro Q. destruct HF as (HF1 & _). rewrite (HF1 r Q) in P. discriminate. }
      rewrite E2 by auto. rewrite !HP by auto. reflexivity.
    + destruct r as [| q]; [apply HP; auto |]. assert (Nq : q <> p) by lia. destruct (ie_old q c ltac:(lia)) as (E1 & E2 & _). rewrite E1.
      destruct (pr q c) eqn:P; [| apply HP; auto]. rewrite E2 by auto. rewrite !HP by auto. reflexivity.
Qed.
Lemma ie_after : forall d v, runb pr' th' ph' (S c + d) v = nodeop p t x 0 0 (runb pr th ph (S c + d) v).
Proof.
  induction d as [| d IH]; intro v; [rewrite Nat.add_0_r; apply ie_at |]. rewrite Nat.add_succ_r. cbn [runb]. rewrite IH.
  set (k := (S c + d)%nat). set (w := runb pr th ph k v). assert (Hk : (c < k)%nat) by (unfold k; lia).
  assert (HP : phop ph' k (nodeop p t x 0 0 w) = nodeop p t x 0 0 (phop ph k w)).
  { rewrite <- ph_node_comm by (apply Hfph; lia). apply functional_extensionality. intro r. unfold phop. destruct (ie_old r k ltac:(lia)) as (_ & _ & ->). reflexivity. }
  rewrite HP. rewrite <- col_node_comm by (apply Hfree; lia). apply functional_extensionality. intro r. unfold colop.
  destruct (evenb (r + k)).
  - destruct (ie_old r k ltac:(lia)) as (E1 & E2 & _). rewrite E1. destruct (pr r k) eqn:P; [rewrite E2 by auto |]; reflexivity.
  - destruct r as [| q]; [reflexivity |]. destruct (ie_old q k ltac:(lia)) as (E1 & E2 & _). rewrite E1. destruct (pr q k) eqn:P; [rewrite E2 by auto |]; reflexivity.
Qed.
Lemma insert_end : forall v, runf n pr' th' ph' v = nodeop p t x 0 0 (runf n pr th ph v).
Proof.
  intro v. unfold runf. replace n with (S c + (n - S c))%nat at 2 4 by lia. rewrite ie_after. rewrite <- ph_node_comm by (apply Hfph; lia).
  replace (S c + (n - S c))%nat with n by lia. apply functional_extensionality. intro r. unfold phop. destruct (ie_old r n ltac:(lia)) as (_ & _ & ->). reflexivity.
Qed.
End InsertEnd.

(** The board with a node (p, c) added, output phases y, z in layer c + 1. *)
Section InsertStart.
Variables (pr pr' : nat -> nat -> bool) (th th' ph ph' : nat -> nat -> R) (n p c : nat) (t y z : R).
Hypothesis Hpar : evenb (p + c) = true.
Hypothesis Hc : (c < n)%nat.
Hypothesis Hpr : forall r k, pr' r k = (if (Nat.eqb r p && Nat.eqb k c)%bool then true else pr r k).
Hypothesis Hth : forall r k, pr' r k = true -> th' r k = (if (Nat.eqb r p && Nat.eqb k c)%bool then t else th r k).
Hypothesis Hph : forall r k, ph' r k = (if Nat.eqb k (S c) then (if Nat.eqb r p then y else if Nat.eqb r (S p) then z else ph r k) else ph r k).
Hypothesis Hfree : forall k, (k <= c)%nat -> free_col pr p k.
Hypothesis Hfph : forall k, (k <= S c)%nat -> free_ph ph p k.
Notation A := (nodeop p t 0 y z).

Lemma is_old : forall r k, (r <> p \/ k <> c) -> pr' r k = pr r k /\ (pr r k = true -> th' r k = th r k).
Proof.
  intros r k H. assert (E : (Nat.eqb r p && Nat.eqb k c)%bool = false). { destruct (Nat.eqb_spec r p), (Nat.eqb_spec k c); cbn; auto; lia. }
  assert (E' : pr' r k = pr r k) by (rewrite Hpr, E; reflexivity). split; [exact E' |].
  intro P. rewrite Hth, E by congruence. reflexivity.
Qed.
Lemma is_ph : forall r k, k <> S c -> ph' r k = ph r k.
Proof. intros r k H. rewrite Hph. destruct (Nat.eqb_spec k (S c)); [lia | reflexivity]. Qed.
Lemma is_before : forall k v, (k <= c)%nat -> runb pr' th' ph' k v = runb pr th ph k v.
Proof. intros k v Hk. apply runb_ext. intros r c' Hc'. destruct (is_old r c' ltac:(lia)) as [E T]. rewrite is_ph by lia. auto. Qed.
Lemma is_comm : forall k v, (k <= c)%nat -> runb pr th ph k (A v) = A (runb pr th ph k v).
Proof.
  induction k as [| k IH]; intros v Hk; [reflexivity |]. cbn [runb]. rewrite IH by lia.
  rewrite ph_node_comm by (apply Hfph; lia). apply col_node_comm. apply Hfree. lia.
Qed.
Lemma is_at : forall v, phop ph' (S c) (runb pr' th' ph' (S c) v) = phop ph (S c) (runb pr th ph (S c) (A v)).
Proof.
  intro v. cbn [runb]. rewrite is_before, is_comm by lia. set (w := runb pr th ph c v).
  destruct (Hfph c ltac:(lia)) as [F1 F2]. destruct (Hfph (S c) ltac:(lia)) as [G1 G2]. pose proof (Hfree c (le_n c)) as HF.
  rewrite ph_node_comm by (apply Hfph; lia). rewrite col_node_comm by auto.
  assert (HP : phop ph' c w = phop ph c w) by (apply functional_extensionality; intro r; unfold phop; rewrite is_ph by lia; reflexivity).
  rewrite HP. set (w1 := phop ph c w).
  assert (Ppc : pr' p c = true) by (rewrite Hpr, !Nat.eqb_refl; reflexivity).
  assert (Tpc : th' p c = t) by (rewrite Hth, !Nat.eqb_refl by auto; reflexivity).
  apply functional_extensionality. intro r. unfold phop at 1 2. rewrite Hph, Nat.eqb_refl.
  destruct (Nat.eqb_spec r p) as [-> | R1]; [| destruct (Nat.eqb_spec r (S p)) as [-> | R2]].
  - rewrite G1, nodeop_p, (colop_free_p pr), (colop_free_S pr) by auto. unfold colop. rewrite Hpar, Ppc, Tpc, cis_0. ring.
  - rewrite G2, nodeop_S, (colop_free_p pr), (colop_free_S pr) by auto. unfold colop. cbn [plus]. rewrite evenb_S, Hpar. cbn [negb]. rewrite Ppc, Tpc, cis_0. ring.
  - rewrite nodeop_o by auto. f_equal. unfold colop. destruct (evenb (r + c)) eqn:E.
    + destruct (is_old r c ltac:(lia)) as [E1 E2]. rewrite E1. destruct (pr r c) eqn:P; [rewrite E2 by auto |]; reflexivity.
    + destruct r as [| q]; [reflexivity |]. destruct (is_old q c ltac:(lia)) as [E1 E2]. rewrite E1. destruct (pr q c) eqn:P; [rewrite E2 by auto |]; reflexivity.
Qed.
Lemma is_after : forall d v, phop ph' (S c + d) (runb pr' th' ph' (S c + d) v) = phop ph (S c + d) (runb pr th ph (S c + d) (A v)).
Proof.
  induction d as [| d IH]; intro v; [rewrite Nat.add_0_r; apply is_at |]. rewrite Nat.add_succ_r. cbn [runb]. rewrite IH.
  set (k := (S c + d)%nat). assert (Hk : (c < k)%nat) by (unfold k; lia). set (w := phop ph k (runb pr th ph k (A v))).
  apply functional_extensionality. intro r. unfold phop. rewrite is_ph by lia. f_equal. unfold colop. destruct (evenb (r + k)).
  - destruct (is_old r k ltac:(lia)) as [E1 E2]. rewrite E1. destruct (pr r k) eqn:P; [rewrite E2 by auto |]; reflexivity.
  - destruct r as [| q]; [reflexivity |]. destruct (is_old q k ltac:(lia)) as [E1 E2]. rewrite E1. destruct (pr q k) eqn:P; [rewrite E2 by auto |]; reflexivity.
Qed.
Lemma insert_start : forall v, runf n pr' th' ph' v = runf n pr th ph (A v).
Proof. intro v. unfold runf. replace n with (S c + (n - S c))%nat by lia. apply is_after. Qed.
End InsertStart.

(** A cut: the board is the right board before layer l(r) on rail r and the left board after it; D in between. *)
Section Cut.
Variables (n : nat) (pr prR prL : nat -> nat -> bool) (th ph phR phL : nat -> nat -> R) (l : nat -> nat) (d : nat -> R).
Hypothesis Hl : forall r, (l r <= n)%nat.
Hypothesis Hpr : forall r c, (c < n)%nat -> evenb (r + c) = true -> pr r c = (prR r c || prL r c)%bool.
Hypothesis HR : forall r c, (c < n)%nat -> evenb (r + c) = true -> prR r c = true -> (c < l r)%nat /\ (c < l (S r))%nat.
Hypothesis HL : forall r c, (c < n)%nat -> evenb (r + c) = true -> prL r c = true -> (l r <= c)%nat /\ (l (S r) <= c)%nat.
Hypothesis HphR : forall r c, (l r <= c)%nat -> phR r c = 0.
Hypothesis HphL : forall r c, (c <= l r)%nat -> phL r c = 0.
Hypothesis Hph : forall r c, (c <= n)%nat -> ph r c = phR r c + phL r c + (if Nat.eqb c (l r) then d r else 0).

Definition dop (v : vec) : vec := fun r => (cis (d r) * v r)%C.
Lemma R_stays : forall v r e, (l r + e <= n)%nat -> runb prR th phR (l r + e) v r = runb prR th phR (l r) v r.
Proof.
  intros v r e. induction e as [| e IH]; intro H; [rewrite Nat.add_0_r; reflexivity |]. rewrite Nat.add_succ_r. cbn [runb]. rewrite <- IH by lia.
  set (k := (l r + e)%nat). assert (Hk : (l r <= k)%nat) by (unfold k; lia). unfold colop. destruct (evenb (r + k)) eqn:E.
  - destruct (prR r k) eqn:P; [destruct (HR r k ltac:(lia) E P); lia |]. apply phop0. auto.
  - destruct r as [| q]; [apply phop0; auto |]. assert (E' : evenb (q + k) = true) by (cbn [plus] in E; rewrite evenb_S in E; destruct (evenb (q + k)); [reflexivity | discriminate]).
    destruct (prR q k) eqn:P; [destruct (HR q k ltac:(lia) E' P); lia |]. apply phop0. auto.
Qed.
Lemma L_waits : forall w r k, (k <= l r)%nat -> runb prL th phL k w r = w r.
Proof.
  intros w r k. induction k as [| k IH]; intro H; [reflexivity |]. cbn [runb]. rewrite <- IH by lia.
  pose proof (Hl r) as Hn. unfold colop. destruct (evenb (r + k)) eqn:E.
  - destruct (prL r k) eqn:P; [destruct (HL r k ltac:(lia) E P); lia |]. apply phop0. apply HphL. lia.
  - destruct r as [| q]; [apply phop0; apply HphL; lia |]. assert (E' : evenb (q + k) = true) by (cbn [plus] in E; rewrite evenb_S in E; destruct (evenb (q + k)); [reflexivity | discriminate]).
    destruct (prL q k) eqn:P; [destruct (HL q k ltac:(lia) E' P); lia |]. apply phop0. apply HphL. lia.
Qed.
Lemma cut_run : forall v k, (k <= n)%nat -> forall r,
  runb pr th ph k v r = if Nat.leb k (l r) then runb prR th phR k v r else runb prL th phL k (dop (runb prR th phR n v)) r.
Proof.
  intros v. set (w := dop (runb prR th phR n v)). induction k as [| k IH]; intros Hk r; [reflexivity |].
  (* the value of rail r just before column k *)
  assert (B : forall r, phop ph k (runb pr th ph k v) r =
     if Nat.ltb k (l r) then phop phR k (runb prR th phR k v) r else phop phL k (runb prL th phL k w) r).
  { intro r'. unfold phop. rewrite Hph by lia. rewrite IH by lia. pose proof (Hl r') as Hn. destruct (Nat.ltb_spec k (l r')) as [H | H].
    - destruct (Nat.leb_spec k (l r')); [| lia]. rewrite HphL by lia. destruct (Nat.eqb_spec k (l r')); [lia |]. f_equal. f_equal. ring.
    - destruct (Nat.leb_spec k (l r')) as [H' | H'].
      + assert (k = l r') by lia. subst k. rewrite Nat.eqb_refl, HphR, HphL by lia. rewrite L_waits by lia. unfold w, dop.
        replace (runb prR th phR n v r') with (runb prR th phR (l r') v r').
        * replace (0 + 0 + d r') with (d r') by ring. rewrite cis_0. ring.
        * replace n with (l r' + (n - l r'))%nat by lia. symmetry. apply R_stays. lia.
      + rewrite HphR by lia. destruct (Nat.eqb_spec k (l r')); [lia |]. f_equal. f_equal. ring. }
  cbn [runb]. unfold colop at 1. destruct (evenb (r + k)) eqn:E.
  - rewrite Hpr by (auto; lia). destruct (prR r k) eqn:P.
    + destruct (HR r k ltac:(lia) E P) as [H1 H2]. rewrite !B. cbn [orb]. destruct (Nat.ltb_spec k (l r)); [| lia]. destruct (Nat.ltb_spec k (l (S r))); [| lia].
      destruct (Nat.leb_spec (S k) (l r)); [| lia]. unfold colop. rewrite E, P. reflexivity.
    + cbn [orb]. destruct (prL r k) eqn:Q.
      * destruct (HL r k ltac:(lia) E Q) as [H1 H2]. rewrite !B. destruct (Nat.ltb_spec k (l r)); [lia |]. destruct (Nat.ltb_spec k (l (S r))); [lia |].
        destruct (Nat.leb_spec (S k) (l r)); [lia |]. unfold colop. rewrite E, Q. reflexivity.
      * rewrite B. destruct (Nat.ltb_spec k (l r)); destruct (Nat.leb_spec (S k) (l r)); try lia; unfold colop; rewrite E, ?P, ?Q; reflexivity.
  - destruct r as [| q].
    + rewrite B. destruct (Nat.ltb_spec k (l 0%nat)); destruct (Nat.leb_spec (S k) (l 0%nat)); try lia; unfold colop; rewrite E; reflexivity.
    + assert (E' : evenb (q + k) = true) by (cbn [plus] in E; rewrite evenb_S in E; destruct (evenb (q + k)); [reflexivity | discriminate]).
      rewrite Hpr by (auto; lia). destruct (prR q k) eqn:P.
      * destruct (HR q k ltac:(lia) E' P) as [H1 H2]. rewrite !B. cbn [orb]. destruct (Nat.ltb_spec k (l q)); [| lia]. destruct (Nat.ltb_spec k (l (S q))); [| lia].
        destruct (Nat.leb_spec (S k) (l (S q))); [| lia]. unfold colop. rewrite E, P. reflexivity.
      * cbn [orb]. destruct (prL q k) eqn:Q.
        -- destruct (HL q k ltac:(lia) E' Q) as [H1 H2]. rewrite !B. destruct (Nat.ltb_spec k (l q)); [lia |]. destruct (Nat.ltb_spec k (l (S q))); [lia |].
           destruct (Nat.leb_spec (S k) (l (S q))); [lia |]. unfold colop. rewrite E, Q. reflexivity.
        -- rewrite B. destruct (Nat.ltb_spec k (l (S q))); destruct (Nat.leb_spec (S k) (l (S q))); try lia; unfold colop; rewrite E, ?P, ?Q; reflexivity.
Qed.
Lemma cut_full : forall v, runf n pr th ph v = runf n prL th phL (dop (runf n prR th phR v)).
Proof.
  intro v. assert (EW : runf n prR th phR v = runb prR th phR n v).
  { apply functional_extensionality. intro r. unfold runf. apply phop0. apply HphR. apply Hl. }
  rewrite EW. apply functional_extensionality. intro r. unfold runf, phop. rewrite Hph by lia. rewrite cut_run by lia. pose proof (Hl r) as Hn.
  destruct (Nat.leb_spec n (l r)) as [H | H].
  - assert (El : l r = n) by lia. rewrite El, Nat.eqb_refl, HphR, HphL by lia. rewrite L_waits by lia. unfold dop. rewrite cis_0. replace (0 + 0 + d r) with (d r) by ring. ring.
  - rewrite HphR by lia. destruct (Nat.eqb_spec n (l r)); [lia |]. f_equal. f_equal. ring.
Qed.
End Cut.
