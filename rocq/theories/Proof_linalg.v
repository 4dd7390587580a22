(** Unitary matrices: products, adjoints, row and column norms, and unitaries that are nearly triangular. *)
From Coq Require Import Reals Lra Lia Psatz List FunctionalExtensionality.
From Verif Require Import Cx Arr Spec_circuit.
Local Open Scope R_scope.

Lemma Cn2_sum_conj : forall n (f : nat -> C), RtoC (Rsum n (fun i => Cn2 (f i))) = Csum n (fun i => Cconj (f i) * f i)%C.
Proof. intros. rewrite Csum_RtoC. apply Csum_ext. intros. rewrite <- Cmul_conj. ring. Qed.

Lemma dagger_unitary : forall n U, unitary n U -> unitary n (dagger U).
Proof.
  intros n U H i j Hi Hj. unfold dagger. destruct (H i j Hi Hj) as [H1 H2]. split.
  - rewrite <- H2. apply Csum_ext. intros. rewrite Cconj_conj. auto.
  - rewrite <- H1. apply Csum_ext. intros. rewrite Cconj_conj. auto.
Qed.

(** (x U) keeps the norm of a row vector x. *)
Lemma unitary_row_power : forall n U x, unitary n U ->
  Rsum n (fun c => Cn2 (Csum n (fun k => x k * U k c)%C)) = Rsum n (fun k => Cn2 (x k)).
Proof.
  intros n U x H. apply RtoC_inj. rewrite !Cn2_sum_conj.
  transitivity (Csum n (fun c => Csum n (fun k => Csum n (fun l => Cconj (x k) * x l * (U l c * Cconj (U k c))))))%C.
  - apply Csum_ext. intros c Hc. rewrite Csum_conj, <- Csum_scal_r. apply Csum_ext. intros k Hk.
    rewrite <- Csum_scal. apply Csum_ext. intros l Hl. rewrite Cconj_mul. ring.
  - rewrite Csum_swap. apply Csum_ext. intros k Hk. rewrite Csum_swap.
    rewrite (Csum_single n _ k Hk).
    + rewrite Csum_scal. rewrite (proj2 (H k k Hk Hk)). unfold delta. rewrite Nat.eqb_refl. ring.
    + intros l Hl Hlk. rewrite Csum_scal. rewrite (proj2 (H l k Hl Hk)). unfold delta. destruct (Nat.eqb_spec l k); [congruence | ring].
Qed.

Lemma prod_unitary : forall n A B, unitary n A -> unitary n B -> unitary n (prod n A B).
Proof.
  intros n A B HA HB i j Hi Hj. unfold prod. split.
  - transitivity (Csum n (fun k => Csum n (fun a => Csum n (fun b => Cconj (B a i) * B b j * (Cconj (A k a) * A k b)))))%C.
    + apply Csum_ext. intros k Hk. rewrite Csum_conj, <- Csum_scal_r. apply Csum_ext. intros a Ha.
      rewrite <- Csum_scal. apply Csum_ext. intros b Hb. rewrite Cconj_mul. ring.
    + rewrite Csum_swap. transitivity (Csum n (fun a => Cconj (B a i) * B a j)%C); [| apply (HB i j Hi Hj)].
      apply Csum_ext. intros a Ha. rewrite Csum_swap. rewrite (Csum_single n _ a Ha).
      * rewrite Csum_scal, (proj1 (HA a a Ha Ha)). unfold delta. rewrite Nat.eqb_refl. ring.
      * intros b Hb Hba. rewrite Csum_scal, (proj1 (HA a b Ha Hb)). unfold delta. destruct (Nat.eqb_spec a b); [congruence | ring].
  - transitivity (Csum n (fun k => Csum n (fun a => Csum n (fun b => A i a * Cconj (A j b) * (B a k * Cconj (B b k))))))%C.
    + apply Csum_ext. intros k Hk. rewrite Csum_conj, <- Csum_scal_r. apply Csum_ext. intros a Ha.
      rewrite <- Csum_scal. apply Csum_ext. intros b Hb. rewrite Cconj_mul. ring.
    + rewrite Csum_swap. transitivity (Csum n (fun a => A i a * Cconj (A j a))%C); [| apply (HA i j Hi Hj)].
      apply Csum_ext. intros a Ha. rewrite Csum_swap. rewrite (Csum_single n _ a Ha).
      * rewrite Csum_scal, (proj2 (HB a a Ha Ha)). unfold delta. rewrite Nat.eqb_refl. ring.
      * intros b Hb Hba. rewrite Csum_scal, (proj2 (HB a b Ha Hb)). unfold delta. destruct (Nat.eqb_spec a b); [congruence | ring].
Qed.

Lemma unitary_row1 : forall n U r, unitary n U -> (r < n)%nat -> Rsum n (fun c => Cn2 (U r c)) = 1.
Proof.
  intros n U r H Hr. apply RtoC_inj. rewrite Cn2_sum_conj. transitivity (Csum n (fun k => U r k * Cconj (U r k))%C).
  - apply Csum_ext. intros. ring.
  - rewrite (proj2 (H r r Hr Hr)). unfold delta. rewrite Nat.eqb_refl. reflexivity.
Qed.
Lemma unitary_col1 : forall n U c, unitary n U -> (c < n)%nat -> Rsum n (fun r => Cn2 (U r c)) = 1.
Proof.
  intros n U r H Hr. apply RtoC_inj. rewrite Cn2_sum_conj. rewrite (proj1 (H r r Hr Hr)). unfold delta. rewrite Nat.eqb_refl. reflexivity.
Qed.

(** Power below the diagonal block equals power above it. *)
Lemma block_balance : forall n U k, unitary n U -> (k <= n)%nat ->
  Rsum (n - k) (fun i => Rsum k (fun c => Cn2 (U (k + i)%nat c))) = Rsum k (fun r => Rsum (n - k) (fun i => Cn2 (U r (k + i)%nat))).
Proof.
  intros n U k H Hk.
  assert (E1 : forall c, (c < k)%nat -> Rsum k (fun r => Cn2 (U r c)) + Rsum (n - k) (fun i => Cn2 (U (k + i)%nat c)) = 1).
  { intros c Hc. rewrite <- (unitary_col1 n U c H) by lia. replace n with (k + (n - k))%nat at 2 by lia. rewrite Rsum_split. auto. }
  assert (E2 : forall r, (r < k)%nat -> Rsum k (fun c => Cn2 (U r c)) + Rsum (n - k) (fun i => Cn2 (U r (k + i)%nat)) = 1).
  { intros c Hc. rewrite <- (unitary_row1 n U c H) by lia. replace n with (k + (n - k))%nat at 2 by lia. rewrite Rsum_split. auto. }
  rewrite Rsum_swap.
  assert (S1 : Rsum k (fun c => Rsum (n - k) (fun i => Cn2 (U (k + i)%nat c))) = Rsum k (fun c => 1 - Rsum k (fun r => Cn2 (U r c)))).
  { apply Rsum_ext. intros c Hc. specialize (E1 c Hc). lra. }
  assert (S2 : Rsum k (fun r => Rsum (n - k) (fun i => Cn2 (U r (k + i)%nat))) = Rsum k (fun r => 1 - Rsum k (fun c => Cn2 (U r c)))).
  { apply Rsum_ext. intros c Hc. specialize (E2 c Hc). lra. }
  rewrite S1, S2, !Rsum_sub. f_equal. apply Rsum_swap.
Qed.

Lemma Rsum_le_more : forall a b f, (a <= b)%nat -> (forall i, 0 <= f i) -> Rsum a f <= Rsum b f.
Proof.
  intros a b f Hab Hf. replace b with (a + (b - a))%nat by lia. rewrite Rsum_split.
  pose proof (Rsum_nonneg (b - a) (fun i => f (a + i)%nat) (fun i _ => Hf _)). lra.
Qed.

Lemma Rsum_INR : forall n, 2 * Rsum n (fun c => INR c) = INR (n * (n - 1)).
Proof.
  induction n as [| n IH]; [simpl; ring |]. cbn [Rsum]. rewrite Rmult_plus_distr_l, IH.
  destruct n as [| n]; [simpl; ring |]. rewrite !mult_INR, !minus_INR, !S_INR by lia. simpl. ring.
Qed.

(** A unitary with nonnegative real diagonal and a small upper triangle is close to the identity. *)
Lemma near_identity : forall n U eps, unitary n U -> 0 <= eps ->
  (forall i, (i < n)%nat -> im (U i i) = 0 /\ 0 <= re (U i i)) ->
  (forall c, (c < n)%nat -> Rsum c (fun r => Cn2 (U r c)) <= INR c * eps) ->
  forall r, (r < n)%nat -> Rsum n (fun c => Cn2 (U r c - delta r c)%C) <= INR (n * (n - 1)) * eps.
Proof.
  intros n U eps H He Hd Hup r Hr.
  destruct (Hd r Hr) as [Him Hre].
  assert (E0 : Rsum n (fun c => Cn2 (U r c - delta r c)%C) = 2 * (1 - re (U r r))).
  { rewrite (Rsum_change1 n _ (fun c => Cn2 (U r c)) r Hr).
    - rewrite (unitary_row1 n U r H Hr). unfold delta. rewrite Nat.eqb_refl. unfold Cn2. simpl. rewrite Him. ring.
    - intros c _ Hc. unfold delta. destruct (Nat.eqb_spec r c); [congruence |]. unfold Cn2; simpl. ring. }
  rewrite E0.
  set (T := Rsum r (fun c => Cn2 (U r c)) + Rsum (n - S r) (fun i => Cn2 (U r (S r + i)%nat))).
  assert (ET : re (U r r) * re (U r r) = 1 - T).
  { pose proof (unitary_row1 n U r H Hr) as E. replace n with (S r + (n - S r))%nat in E by lia. rewrite Rsum_split in E. cbn [Rsum] in E.
    replace (S r + (n - S r) - S r)%nat with (n - S r)%nat in E by lia.
    assert (Cn2 (U r r) = re (U r r) * re (U r r)) by (unfold Cn2; rewrite Him; ring). unfold T. lra. }
  assert (HT0 : 0 <= T).
  { unfold T. pose proof (Rsum_nonneg r (fun c => Cn2 (U r c)) (fun i _ => Cn2_nonneg _)).
    pose proof (Rsum_nonneg (n - S r) (fun i => Cn2 (U r (S r + i)%nat)) (fun i _ => Cn2_nonneg _)). lra. }
  assert (Hre1 : re (U r r) <= 1) by nra.
  assert (H1 : 1 - re (U r r) <= T) by nra.
  assert (HT : T <= Rsum n (fun c => INR c) * eps).
  { (* lower part of row r *)
    assert (L1 : Rsum r (fun c => Cn2 (U r c)) <= Rsum (n - r) (fun i => Rsum r (fun c => Cn2 (U (r + i)%nat c)))).
    { replace (n - r)%nat with (S (n - S r)) by lia. rewrite Rsum_shift. rewrite Nat.add_0_r.
      pose proof (Rsum_nonneg (n - S r) (fun i => Rsum r (fun c => Cn2 (U (r + S i)%nat c)))
        (fun i _ => Rsum_nonneg _ _ (fun j _ => Cn2_nonneg _))). lra. }
    rewrite (block_balance n U r H) in L1 by lia. rewrite Rsum_swap in L1.
    replace (n - r)%nat with (S (n - S r)) in L1 by lia. rewrite Rsum_shift, Nat.add_0_r in L1.
    assert (L2 : Rsum (n - S r) (fun i => Rsum r (fun k => Cn2 (U k (r + S i)%nat))) + Rsum (n - S r) (fun i => Cn2 (U r (S r + i)%nat))
       <= Rsum (n - S r) (fun i => INR (S r + i) * eps)).
    { rewrite <- Rsum_add. apply Rsum_le. intros i Hi. replace (r + S i)%nat with (S r + i)%nat by lia.
      apply Rle_trans with (Rsum (S r + i)%nat (fun k => Cn2 (U k (S r + i)%nat))); [| apply Hup; lia].
      change (Rsum r (fun k => Cn2 (U k (S r + i)%nat)) + Cn2 (U r (S r + i)%nat)) with (Rsum (S r) (fun k => Cn2 (U k (S r + i)%nat))).
      apply Rsum_le_more; [lia | intros; apply Cn2_nonneg]. }
    pose proof (Hup r Hr) as L3.
    assert (L4 : Rsum n (fun c => INR c) * eps = Rsum r (fun c => INR c * eps) + INR r * eps + Rsum (n - S r) (fun i => INR (S r + i) * eps)).
    { rewrite Rmult_comm, <- Rsum_scal. replace n with (S r + (n - S r))%nat at 1 by lia. rewrite Rsum_split. cbn [Rsum].
      rewrite (Rsum_ext r (fun i => eps * INR i) (fun c => INR c * eps)) by (intros; ring).
      rewrite (Rsum_ext (n - S r) (fun i => eps * INR (S r + i)) (fun i => INR (S r + i) * eps)) by (intros; ring). ring. }
    pose proof (Rsum_nonneg r (fun c => INR c * eps) (fun i _ => Rmult_le_pos _ _ (pos_INR _) He)).
    unfold T. lra. }
  rewrite <- Rsum_INR. nra.
Qed.

(** If P u^dagger is close to the identity then P is close to u. *)
Lemma close_from_product : forall n P u, unitary n u ->
  forall r, (r < n)%nat -> Rsum n (fun c => Cn2 (P r c - u r c)%C) =
     Rsum n (fun k => Cn2 (prod n P (dagger u) r k - delta r k)%C).
Proof.
  intros n P u Hu r Hr.
  rewrite <- (unitary_row_power n u (fun k => prod n P (dagger u) r k - delta r k)%C Hu).
  apply Rsum_ext. intros c Hc. f_equal.
  transitivity (Csum n (fun k => prod n P (dagger u) r k * u k c)%C - Csum n (fun k => delta r k * u k c)%C)%C.
  - rewrite Csum_delta_l by auto. f_equal.
    transitivity (Csum n (fun k => Csum n (fun l => P r l * (Cconj (u k l) * u k c))))%C.
    + rewrite Csum_swap. rewrite (Csum_single n _ c Hc).
      * rewrite Csum_scal, (proj1 (Hu c c Hc Hc)). unfold delta. rewrite Nat.eqb_refl. ring.
      * intros l Hl Hlc. rewrite Csum_scal, (proj1 (Hu l c Hl Hc)). unfold delta. destruct (Nat.eqb_spec l c); [congruence | ring].
    + apply Csum_ext. intros k Hk. unfold prod, dagger. rewrite <- Csum_scal_r. apply Csum_ext. intros. ring.
  - rewrite <- Csum_sub. apply Csum_ext. intros. ring.
Qed.
