(** get_mask_fn in terms of box geometry (C52). *)
From Coq Require Import Reals List Arith ZArith Lra Lia Bool.
From Verif Require Import Cx Arr Model_yee Model_grid Spec_grid Proof_grid Spec_transform Proof_transform.
Import ListNotations.
Local Open Scope R_scope.

Lemma mask_covers : forall b n m i j, within n m b -> (0 <= i < n)%Z -> (0 <= j < m)%Z -> (b_mask b n m i j = true <-> covers b i j).
Proof. intros b n m i j (A & B & C & D & E & F & G) Hi Hj. apply b_mask_exact; auto. Qed.
Lemma mask_region : forall init bs n m rho i j, (forall b, In b bs -> within n m b) -> (0 <= i < n)%Z -> (0 <= j < m)%Z ->
  ((exists b, In b bs /\ covers b i j) -> get_mask_fn init bs n m rho i j = rho i j) /\
  (~ (exists b, In b bs /\ covers b i j) -> get_mask_fn init bs n m rho i j = init i j).
Proof.
  intros init bs n m rho i j W Hi Hj. destruct (mask_list_exact init bs n m rho i j) as [A B]. split; intro H.
  - apply A. destruct H as (b & Hb & Hc). exists b. split; auto. apply (mask_covers b n m i j); auto.
  - apply B. intros (b & Hb & Hc). apply H. exists b. split; auto. apply (mask_covers b n m i j); auto.
Qed.
Lemma mask_region_one : forall init b n m rho i j, within n m b -> (0 <= i < n)%Z -> (0 <= j < m)%Z ->
  (covers b i j -> get_mask_fn1 init b n m rho i j = rho i j) /\ (~ covers b i j -> get_mask_fn1 init b n m rho i j = init i j).
Proof.
  intros init b n m rho i j W Hi Hj. destruct (mask_one_exact init b n m rho i j) as [A B]. split; intro H.
  - apply A. apply mask_covers; auto.
  - apply B. apply not_true_is_false. intro E. apply H. apply (mask_covers b n m i j) in E; auto.
Qed.
Lemma region_instance : within 10 10 (mkBox (2, 3) (1, 1) 1) /\ covers (mkBox (2, 3) (1, 1) 1) 2 3 /\ ~ covers (mkBox (2, 3) (1, 1) 1) 3 3.
Proof.
  unfold within, covers, edge_in, b_max. cbn [b_spacing b_min b_size fst snd]. split; [repeat split; lra |]. split; [repeat split; lra |]. intros [[H1 H2] _]. lra.
Qed.
