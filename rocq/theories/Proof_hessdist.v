(** Proofs for C156. *)
From Coq Require Import Reals Lra Lia List Arith.
From Verif Require Import Cx Arr Spec_circuit Model_coupling Model_forward Model_vector Model_hess Spec_hess Proof_hess8 Proof_hess9 Proof_hess10 Model_hessdist.
Import ListNotations.
Local Open Scope R_scope.

Lemma dist_total : forall eps n balanced draws, 0 <= eps -> (2 <= n)%nat -> (forall v, In v draws -> 0 < power n v) ->
  exists l, hessian_distribution eps n balanced draws = Some l /\ length l = length draws /\
    forall k, (k < length draws)%nat -> exists h, hessian_vector_unit eps (nth k draws (fun _ => C0)) n balanced = Some h /\ nth k l [] = first_row n h.
Proof.
  intros eps n balanced draws He Hn. induction draws as [| v rest IH]; intro Hd.
  - exists []. cbn. repeat split; auto. intros; lia.
  - destruct IH as (l & E & L & K); [intros; apply Hd; right; auto |].
    destruct (hessian_blocks_eps eps n balanced v He Hn (Hd v (or_introl eq_refl))) as (m & p & h & _ & Hh & _).
    exists (first_row n h :: l). cbn [hessian_distribution]. rewrite Hh, E. cbn [length]. repeat split; auto.
    intros [| k] Hk; [exists h; cbn [nth]; auto |]. cbn [nth]. apply K. lia.
Qed.
Lemma first_row_nth : forall n h b, (b < 2 * (n - 1))%nat -> nth b (first_row n h) 0 = h 0%nat b.
Proof. intros n h b H. unfold first_row. rewrite (nth_indep _ 0 (h 0%nat 0%nat)) by (rewrite map_length, seq_length; auto). rewrite map_nth, seq_nth by auto. reflexivity. Qed.
Lemma dist_rows : forall eps n balanced draws, 0 <= eps -> (2 <= n)%nat -> (forall v, In v draws -> 0 < power n v) ->
  exists l, hessian_distribution eps n balanced draws = Some l /\ length l = length draws /\
    forall k, (k < length draws)%nat -> let v := nth k draws (fun _ => C0) in
      exists m p, conj_unit eps (normalize n v) n balanced = Some (m, p) /\
      (forall b, (b < n - 1)%nat -> exists d, second_partial m n (fun i => Cconj (normalize n v i)) p 0 b d /\ (nth b (nth k l []) 0 - d) ^ 2 <= 72 * INR (n - 1) * eps) /\
      (forall b, (b < n - 1)%nat -> exists d, second_partial m n (fun i => Cconj (normalize n v i)) p (n - 1) b d /\ (nth (b + (n - 1)) (nth k l []) 0 - d) ^ 2 <= 72 * INR (n - 1) * eps).
Proof.
  intros eps n balanced draws He Hn Hd. destruct (dist_total eps n balanced draws He Hn Hd) as (l & E & L & K). exists l. split; [auto | split; [auto |]].
  intros k Hk v. destruct (K k Hk) as (h & Hh & R0).
  destruct (hessian_blocks_eps eps n balanced v He Hn (Hd v (nth_In _ _ Hk))) as (m & p & h' & Hc & Hh' & B).
  assert (h' = h) by (fold v in Hh; rewrite Hh in Hh'; congruence). subst h'. exists m, p. split; [exact Hc |]. split; intros b Hb.
  - destruct (B 0%nat b ltac:(lia) ltac:(lia)) as (S1 & _). destruct S1 as (d & D1 & D2); [unfold same_kind; lia |]. exists d. split; auto.
    rewrite R0, first_row_nth by lia. exact D2.
  - destruct (B 0%nat (b + (n - 1))%nat ltac:(lia) ltac:(lia)) as (_ & S2 & _). destruct S2 as (d & D1 & D2); [unfold same_kind; lia |].
    assert (O1 : other n 0 = (n - 1)%nat) by (unfold other; destruct (Nat.ltb_spec 0 (n - 1)); lia).
    assert (O2 : other n (b + (n - 1)) = b) by (unfold other; destruct (Nat.ltb_spec (b + (n - 1)) (n - 1)); lia).
    rewrite O1, O2 in D1. exists d. split; auto. rewrite R0, first_row_nth by lia. exact D2.
Qed.
Lemma dist_shape : forall eps n balanced draws l k, hessian_distribution eps n balanced draws = Some l -> (k < length draws)%nat -> length (nth k l []) = (2 * (n - 1))%nat.
Proof.
  intros eps n balanced draws. induction draws as [| v rest IH]; intros l k E Hk; [cbn in Hk; lia |].
  cbn [hessian_distribution] in E. destruct (hessian_vector_unit eps v n balanced) as [h |]; [| discriminate].
  destruct (hessian_distribution eps n balanced rest) as [l' |]; [| discriminate].
  assert (El : l = first_row n h :: l') by congruence. subst l. destruct k as [| k]; cbn [nth].
  - unfold first_row. rewrite map_length, seq_length. reflexivity.
  - apply IH; auto. cbn in Hk. lia.
Qed.
