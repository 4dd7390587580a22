(** Rank-one numpy arrays as functions on [nat], in-place assignment with
    fancy-index semantics (the last write to an index wins), finite sums. *)
From Coq Require Import Reals Lra Lia List Permutation FunctionalExtensionality.
From Verif Require Import Cx.
Import ListNotations.
Local Open Scope R_scope.

Definition vec := nat -> C.
Definition mat := nat -> nat -> C.

(** [f[i] = x] *)
Definition upd {A : Type} (f : nat -> A) (i : nat) (x : A) : nat -> A :=
  fun j => if Nat.eqb j i then x else f j.

(** [f[idxs] = vals] : sequential writes, last write wins. *)
Definition assign {A : Type} (f : nat -> A) (l : list (nat * A)) : nat -> A :=
  fold_left (fun g p => upd g (fst p) (snd p)) l f.

Arguments assign : simpl never.

(** Sum over [0..n-1]. *)
Fixpoint Csum (n : nat) (f : nat -> C) : C :=
  match n with O => C0 | S m => (Csum m f + f m)%C end.
Fixpoint Rsum (n : nat) (f : nat -> R) : R :=
  match n with O => 0 | S m => Rsum m f + f m end.

Lemma upd_eq : forall A (f : nat -> A) i x, upd f i x i = x.
Proof. intros; unfold upd; rewrite Nat.eqb_refl; auto. Qed.
Lemma upd_neq : forall A (f : nat -> A) i j x, j <> i -> upd f i x j = f j.
Proof. intros; unfold upd; destruct (Nat.eqb_spec j i); congruence. Qed.
Lemma upd_same : forall A (f : nat -> A) i, upd f i (f i) = f.
Proof.
  intros; apply functional_extensionality; intro j; unfold upd.
  destruct (Nat.eqb_spec j i); subst; auto.
Qed.
Lemma upd_comm : forall A (f : nat -> A) i j x y, i <> j -> upd (upd f i x) j y = upd (upd f j y) i x.
Proof.
  intros; apply functional_extensionality; intro k; unfold upd.
  destruct (Nat.eqb_spec k j); destruct (Nat.eqb_spec k i); subst; congruence.
Qed.

Lemma assign_nil : forall A (f : nat -> A), assign f [] = f.
Proof. reflexivity. Qed.
Lemma assign_cons : forall A (f : nat -> A) p l, assign f (p :: l) = assign (upd f (fst p) (snd p)) l.
Proof. reflexivity. Qed.
Lemma assign_app : forall A (f : nat -> A) l1 l2, assign f (l1 ++ l2) = assign (assign f l1) l2.
Proof. intros; unfold assign; apply fold_left_app. Qed.
Lemma assign_notin : forall A l (f : nat -> A) j, ~ In j (map fst l) -> assign f l j = f j.
Proof.
  induction l as [| p l IH]; intros f j H; simpl in *; auto.
  rewrite assign_cons, IH by tauto. apply upd_neq. intro E; subst; tauto.
Qed.
Lemma assign_in : forall A l (f : nat -> A) j x,
  NoDup (map fst l) -> In (j, x) l -> assign f l j = x.
Proof.
  induction l as [| p l IH]; intros f j x Hnd Hin; simpl in *; [tauto |].
  inversion Hnd as [| a b Hni Hnd']; subst.
  rewrite assign_cons. destruct Hin as [E | Hin].
  - subst p. simpl. rewrite assign_notin by auto. apply upd_eq.
  - apply IH; auto.
Qed.
(** Writes that agree with each other: any order gives the same array. *)
Lemma assign_consistent : forall A l (f : nat -> A) j x,
  In j (map fst l) -> (forall y, In (j, y) l -> y = x) -> assign f l j = x.
Proof.
  induction l as [| p l IH]; intros f j x Hin Hall; simpl in *; [tauto |].
  rewrite assign_cons.
  destruct (in_dec Nat.eq_dec j (map fst l)) as [Hj | Hj].
  - apply IH; auto.
  - rewrite assign_notin by auto. destruct Hin as [E | Hin]; [| tauto].
    destruct p as [k y]; simpl in *; subst k. rewrite upd_eq. apply Hall; auto.
Qed.
Lemma assign_upd_comm : forall A l (f : nat -> A) i x, ~ In i (map fst l) ->
  assign (upd f i x) l = upd (assign f l) i x.
Proof.
  induction l as [| p l IH]; intros f i x H; simpl in *; auto.
  rewrite !assign_cons. rewrite upd_comm by (intro E; apply H; auto). rewrite IH by tauto. reflexivity.
Qed.

(** ** Sums *)
Lemma Csum_ext : forall n f g, (forall i, (i < n)%nat -> f i = g i) -> Csum n f = Csum n g.
Proof. induction n; intros f g H; simpl; auto. rewrite (IHn f g), (H n); auto. Qed.
Lemma Rsum_ext : forall n f g, (forall i, (i < n)%nat -> f i = g i) -> Rsum n f = Rsum n g.
Proof. induction n; intros f g H; simpl; auto. rewrite (IHn f g), (H n); auto. Qed.
Lemma Csum_0 : forall n f, (forall i, (i < n)%nat -> f i = C0) -> Csum n f = C0.
Proof. induction n; intros f H; simpl; auto. rewrite IHn, (H n) by auto. ring. Qed.
Lemma Rsum_0 : forall n f, (forall i, (i < n)%nat -> f i = 0) -> Rsum n f = 0.
Proof. induction n; intros f H; simpl; auto. rewrite IHn, (H n) by auto. ring. Qed.
Lemma Csum_add : forall n f g, Csum n (fun i => f i + g i)%C = (Csum n f + Csum n g)%C.
Proof. induction n; intros; simpl; [| rewrite IHn]; ring. Qed.
Lemma Rsum_add : forall n f g, Rsum n (fun i => f i + g i) = Rsum n f + Rsum n g.
Proof. induction n; intros; simpl; [| rewrite IHn]; ring. Qed.
Lemma Csum_sub : forall n f g, Csum n (fun i => f i - g i)%C = (Csum n f - Csum n g)%C.
Proof. induction n; intros; simpl; [| rewrite IHn]; ring. Qed.
Lemma Rsum_sub : forall n f g, Rsum n (fun i => f i - g i) = Rsum n f - Rsum n g.
Proof. induction n; intros; simpl; [| rewrite IHn]; ring. Qed.
Lemma Csum_scal : forall n c f, Csum n (fun i => c * f i)%C = (c * Csum n f)%C.
Proof. induction n; intros; simpl; [| rewrite IHn]; ring. Qed.
Lemma Csum_scal_r : forall n c f, Csum n (fun i => f i * c)%C = (Csum n f * c)%C.
Proof. induction n; intros; simpl; [| rewrite IHn]; ring. Qed.
Lemma Rsum_scal : forall n c f, Rsum n (fun i => c * f i) = c * Rsum n f.
Proof. induction n; intros; simpl; [| rewrite IHn]; ring. Qed.
Lemma Csum_conj : forall n f, Cconj (Csum n f) = Csum n (fun i => Cconj (f i)).
Proof. induction n; intros; simpl; [apply Cconj_C0 | rewrite Cconj_add, IHn; auto]. Qed.
Lemma Csum_RtoC : forall n f, RtoC (Rsum n f) = Csum n (fun i => RtoC (f i)).
Proof. induction n; intros; simpl; [reflexivity | rewrite RtoC_add, IHn; auto]. Qed.
Lemma re_Csum : forall n f, re (Csum n f) = Rsum n (fun i => re (f i)).
Proof. induction n; intros; simpl; [| rewrite IHn]; auto. Qed.
Lemma im_Csum : forall n f, im (Csum n f) = Rsum n (fun i => im (f i)).
Proof. induction n; intros; simpl; [| rewrite IHn]; auto. Qed.
Lemma Rsum_nonneg : forall n f, (forall i, (i < n)%nat -> 0 <= f i) -> 0 <= Rsum n f.
Proof.
  induction n; intros f H; simpl; [lra |].
  assert (0 <= Rsum n f) by (apply IHn; auto). assert (0 <= f n) by auto. lra.
Qed.
Lemma Rsum_le : forall n f g, (forall i, (i < n)%nat -> f i <= g i) -> Rsum n f <= Rsum n g.
Proof.
  induction n; intros f g H; simpl; [lra |].
  assert (Rsum n f <= Rsum n g) by (apply IHn; auto). assert (f n <= g n) by auto. lra.
Qed.
Lemma Rsum_const : forall n c, Rsum n (fun _ => c) = INR n * c.
Proof. induction n; intros; [simpl; ring |]. rewrite S_INR; simpl; rewrite IHn; ring. Qed.
Lemma Rsum_term_le : forall n f i, (forall i, (i < n)%nat -> 0 <= f i) -> (i < n)%nat -> f i <= Rsum n f.
Proof.
  induction n; intros f i H Hi; [lia |]. simpl.
  assert (Hn : 0 <= Rsum n f) by (apply Rsum_nonneg; auto). assert (Hfn : 0 <= f n) by auto.
  destruct (Nat.eq_dec i n); [subst; lra |].
  assert (f i <= Rsum n f) by (apply IHn; auto; lia). lra.
Qed.
Lemma Rsum_zero_terms : forall n f, (forall i, (i < n)%nat -> 0 <= f i) -> Rsum n f = 0 ->
  forall i, (i < n)%nat -> f i = 0.
Proof.
  intros n f H E i Hi. pose proof (Rsum_term_le n f i H Hi). pose proof (H i Hi). lra.
Qed.
Lemma Csum_swap : forall n m f, Csum n (fun i => Csum m (fun j => f i j)) = Csum m (fun j => Csum n (fun i => f i j)).
Proof.
  induction n; intros m f; simpl.
  - symmetry; apply Csum_0; auto.
  - rewrite IHn, <- Csum_add. reflexivity.
Qed.
Lemma Rsum_swap : forall n m f, Rsum n (fun i => Rsum m (fun j => f i j)) = Rsum m (fun j => Rsum n (fun i => f i j)).
Proof.
  induction n; intros m f; simpl.
  - symmetry; apply Rsum_0; auto.
  - rewrite IHn, <- Rsum_add. reflexivity.
Qed.

(** Changing one term of a sum. *)
Lemma Csum_change1 : forall n f g i, (i < n)%nat -> (forall j, (j < n)%nat -> j <> i -> f j = g j) ->
  Csum n f = (Csum n g + (f i - g i))%C.
Proof.
  induction n; intros f g i Hi H; [lia |]. simpl.
  destruct (Nat.eq_dec i n) as [E | E].
  - subst i. rewrite (Csum_ext n f g) by (intros j Hj; apply H; lia). ring.
  - rewrite (IHn f g i) by (try lia; intros; apply H; lia). rewrite (H n) by lia. ring.
Qed.
Lemma Rsum_change1 : forall n f g i, (i < n)%nat -> (forall j, (j < n)%nat -> j <> i -> f j = g j) ->
  Rsum n f = Rsum n g + (f i - g i).
Proof.
  induction n; intros f g i Hi H; [lia |]. simpl.
  destruct (Nat.eq_dec i n) as [E | E].
  - subst i. rewrite (Rsum_ext n f g) by (intros j Hj; apply H; lia). ring.
  - rewrite (IHn f g i) by (try lia; intros; apply H; lia). rewrite (H n) by lia. ring.
Qed.
(** Changing two terms of a sum. *)
Lemma Rsum_change2 : forall n f g a b, (a < n)%nat -> (b < n)%nat -> a <> b ->
  (forall j, (j < n)%nat -> j <> a -> j <> b -> f j = g j) ->
  Rsum n f = Rsum n g + (f a - g a) + (f b - g b).
Proof.
  intros n f g a b Ha Hb Hab H.
  rewrite (Rsum_change1 n f (upd f a (g a)) a) by (auto; intros; rewrite upd_neq; auto).
  rewrite (Rsum_change1 n (upd f a (g a)) g b).
  - rewrite upd_eq, upd_neq by auto. ring.
  - auto.
  - intros j Hj Hjb. unfold upd. destruct (Nat.eqb_spec j a); subst; auto.
Qed.
Lemma Csum_change2 : forall n f g a b, (a < n)%nat -> (b < n)%nat -> a <> b ->
  (forall j, (j < n)%nat -> j <> a -> j <> b -> f j = g j) ->
  Csum n f = (Csum n g + (f a - g a) + (f b - g b))%C.
Proof.
  intros n f g a b Ha Hb Hab H.
  rewrite (Csum_change1 n f (upd f a (g a)) a) by (auto; intros; rewrite upd_neq; auto).
  rewrite (Csum_change1 n (upd f a (g a)) g b).
  - rewrite upd_eq, upd_neq by auto. ring.
  - auto.
  - intros j Hj Hjb. unfold upd. destruct (Nat.eqb_spec j a); subst; auto.
Qed.
(** A sum with one nonzero term. *)
Lemma Csum_single : forall n f i, (i < n)%nat -> (forall j, (j < n)%nat -> j <> i -> f j = C0) ->
  Csum n f = f i.
Proof.
  intros n f i Hi H. rewrite (Csum_change1 n f (fun _ => C0) i Hi) by auto.
  rewrite Csum_0 by auto. ring.
Qed.
Lemma Rsum_single : forall n f i, (i < n)%nat -> (forall j, (j < n)%nat -> j <> i -> f j = 0) ->
  Rsum n f = f i.
Proof.
  intros n f i Hi H. rewrite (Rsum_change1 n f (fun _ => 0) i Hi) by auto.
  rewrite Rsum_0 by auto. ring.
Qed.
Lemma Csum_double : forall n f a b, (a < n)%nat -> (b < n)%nat -> a <> b ->
  (forall j, (j < n)%nat -> j <> a -> j <> b -> f j = C0) -> Csum n f = (f a + f b)%C.
Proof.
  intros n f a b Ha Hb Hab H. rewrite (Csum_change2 n f (fun _ => C0) a b) by auto.
  rewrite Csum_0 by auto. ring.
Qed.
Lemma Csum_split : forall n m f, Csum (n + m) f = (Csum n f + Csum m (fun i => f (n + i)%nat))%C.
Proof.
  induction m; intros f; simpl.
  - rewrite Nat.add_0_r. ring.
  - rewrite Nat.add_succ_r. simpl. rewrite IHm. ring.
Qed.
Lemma Rsum_split : forall n m f, Rsum (n + m) f = Rsum n f + Rsum m (fun i => f (n + i)%nat).
Proof.
  induction m; intros f; simpl.
  - rewrite Nat.add_0_r. ring.
  - rewrite Nat.add_succ_r. simpl. rewrite IHm. ring.
Qed.
Lemma Csum_shift : forall n f, Csum (S n) f = (f O + Csum n (fun i => f (S i)))%C.
Proof. induction n; intros f; simpl; [ring |]. simpl in IHn. rewrite IHn. ring. Qed.
Lemma Rsum_shift : forall n f, Rsum (S n) f = f O + Rsum n (fun i => f (S i)).
Proof. induction n; intros f; simpl; [ring |]. simpl in IHn. rewrite IHn. ring. Qed.

(** Kronecker delta. *)
Definition delta (i j : nat) : C := if Nat.eqb i j then C1 else C0.
(** Basis vector. *)
Definition basis (j : nat) : vec := fun i => delta i j.

Lemma Csum_delta_l : forall n i f, (i < n)%nat -> Csum n (fun j => delta i j * f j)%C = f i.
Proof.
  intros n i f Hi. rewrite (Csum_single n _ i Hi).
  - unfold delta; rewrite Nat.eqb_refl; ring.
  - intros j _ Hj. unfold delta. destruct (Nat.eqb_spec i j); [congruence | ring].
Qed.
Lemma delta_sym : forall i j, delta i j = delta j i.
Proof. intros; unfold delta; rewrite Nat.eqb_sym; auto. Qed.
