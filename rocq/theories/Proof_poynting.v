(** Proofs of C65 and of the TE part of C69 in the vocabulary of Spec_poynting. *)
From Coq Require Import Reals List Arith Lra Lia Bool.
From Verif Require Import Cx Arr Model_yee Model_fdfd Model_adj Model_mode Spec_mode Spec_poynting Proof_adj Proof_mode4.
Local Open Scope R_scope.
Lemma before_prev : forall n i, (i < n)%nat -> prev n i = before n i.
Proof.
  intros n i H. unfold prev, before. destruct (Nat.eqb_spec i 0) as [-> | Hi].
  - rewrite Nat.mod_small; lia.
  - replace (i + (n - 1))%nat with ((i - 1) + 1 * n)%nat by lia. rewrite Nat.mod_add by lia. rewrite Nat.mod_small; lia.
Qed.
Lemma half : forall z, (z / RtoC 2)%C = (z * RtoC (/ 2))%C.
Proof. intros. apply C_eq; unfold Cdiv, Cinv, Cn2; cbn; field. Qed.
Lemma mean_first_avg : forall n f i j, (i < n)%nat -> avg0 n f i j = mean_first n f i j.
Proof. intros. unfold avg0, mean_first. rewrite before_prev, half by auto. reflexivity. Qed.
Lemma mean_second_avg : forall m f i j, (j < m)%nat -> avg1 m f i j = mean_second m f i j.
Proof. intros. unfold avg1, mean_second. rewrite before_prev, half by auto. reflexivity. Qed.
Lemma poynting_corners : forall n m e h, exists p, poynting 2 n m e h = Some p /\ forall i j, (i < n)%nat -> (j < m)%nat ->
  p i j = (mean_second m (e O) i j * Cconj (mean_second m (h 1%nat) i j) - mean_first n (e 1%nat) i j * Cconj (mean_first n (h O) i j))%C.
Proof.
  intros. destruct (poynting_axis2 n m e h) as (p & Hp & H). exists p. split; auto. intros i j Hi Hj.
  rewrite H, !mean_first_avg, !mean_second_avg by auto. reflexivity.
Qed.
Lemma te_power_corners : forall q beta m i, q_k0 q <> 0 -> (i < q_shape q AX)%nat ->
  exists p, poynting 2 (q_shape q AX) 1 (as_array (e_1d q false beta m)) (as_array (h_1d q false beta m)) = Some p /\
    p i 0%nat = RtoC (- (beta / q_k0 q) * Cn2 (mean_first (q_shape q AX) (fun i j => m i j 0%nat) i 0%nat)).
Proof.
  intros q beta m i Hk Hi. destruct (te_power q beta m i Hk) as (p & Hp & H). exists p. split; auto.
  rewrite H, mean_first_avg by auto. reflexivity.
Qed.
