(** cs and csinv are mutually inverse exactly when the lower-left block is injective. *)
From Coq Require Import Reals Lra Lia Psatz Arith Bool Ratan.
From Verif Require Import Cx Arr Spec_circuit Spec_cs Model_coupling Model_matrix Model_cs Proof_linalg Proof_matrix Proof_forward4.
Local Open Scope R_scope.

(** ** Matrix algebra on the indices below n *)
Lemma prod_meq : forall n A A' B B', meq n A A' -> meq n B B' -> meq n (prod n A B) (prod n A' B').
Proof. intros n A A' B B' HA HB i j Hi Hj. unfold prod. apply Csum_ext. intros k Hk. rewrite HA, HB by auto. reflexivity. Qed.
Lemma meq_sym : forall n A B, meq n A B -> meq n B A. Proof. intros n A B H i j Hi Hj. rewrite H; auto. Qed.
Lemma meq_trans : forall n A B D, meq n A B -> meq n B D -> meq n A D. Proof. intros n A B D H H' i j Hi Hj. rewrite H, H'; auto. Qed.
Lemma meq_refl : forall n A, meq n A A. Proof. intros n A i j _ _. reflexivity. Qed.
Lemma prod_assoc_gen : forall p q (A B D : mat) i j,
  Csum p (fun k => Csum q (fun l => A i l * B l k) * D k j)%C = Csum q (fun l => A i l * Csum p (fun k => B l k * D k j))%C.
Proof.
  intros. transitivity (Csum p (fun k => Csum q (fun l => A i l * (B l k * D k j))))%C.
  - apply Csum_ext. intros k _. rewrite <- Csum_scal_r. apply Csum_ext. intros. ring.
  - rewrite Csum_swap. apply Csum_ext. intros l _. rewrite Csum_scal. reflexivity.
Qed.
Lemma prod_assoc : forall n A B D, meq n (prod n (prod n A B) D) (prod n A (prod n B D)).
Proof. intros n A B D i j _ _. unfold prod. apply prod_assoc_gen. Qed.
Lemma prod_delta_l : forall n A, meq n (prod n delta A) A.
Proof. intros n A i j Hi _. unfold prod. apply (Csum_delta_l n i (fun k => A k j)). exact Hi. Qed.
Lemma prod_delta_r : forall n A, meq n (prod n A delta) A.
Proof.
  intros n A i j _ Hj. unfold prod. rewrite (Csum_ext n _ (fun k => delta j k * A i k)%C) by (intros; rewrite (delta_sym j); ring).
  apply (Csum_delta_l n j (fun k => A i k)). exact Hj.
Qed.
Lemma unitary_l : forall n U, unitary n U -> meq n (prod n (dagger U) U) delta.
Proof. intros n U H i j Hi Hj. apply (H i j Hi Hj). Qed.
Lemma unitary_r : forall n U, unitary n U -> meq n (prod n U (dagger U)) delta.
Proof. intros n U H i j Hi Hj. apply (H i j Hi Hj). Qed.
(** U = L (L^H U R^H) R. *)
Lemma sandwich : forall n L R U, unitary n L -> unitary n R ->
  meq n (prod n (prod n L (prod n (prod n (dagger L) U) (dagger R))) R) U.
Proof.
  intros n L R U HL HR.
  eapply meq_trans; [apply prod_assoc |].
  eapply meq_trans; [apply prod_meq; [apply meq_refl | apply prod_assoc] |].
  eapply meq_trans; [apply prod_meq; [apply meq_refl | apply prod_meq; [apply meq_refl | apply unitary_l; exact HR]] |].
  eapply meq_trans; [apply prod_meq; [apply meq_refl | apply prod_delta_r] |].
  eapply meq_trans; [apply meq_sym, prod_assoc |].
  eapply meq_trans; [apply prod_meq; [apply unitary_r; exact HL | apply meq_refl] |].
  apply prod_delta_l.
Qed.

(** ** Blocks of L A R for block diagonal L and R *)
Lemma bd_prod_t : forall m k A B X i j, (i < m)%nat -> prod (m + k) (block_diag m A B) X i j = Csum m (fun t => A i t * X t j)%C.
Proof.
  intros. unfold prod. rewrite Csum_split.
  rewrite (Csum_0 k) by (intros t Ht; rewrite bd_tr by auto; apply C_eq; cbn; ring).
  rewrite (Csum_ext m _ (fun t => A i t * X t j)%C) by (intros t Ht; rewrite bd_tl by auto; reflexivity). ring.
Qed.
Lemma bd_prod_b : forall m k A B X i j, prod (m + k) (block_diag m A B) X (m + i)%nat j = Csum k (fun t => B i t * X (m + t)%nat j)%C.
Proof.
  intros. unfold prod. rewrite Csum_split.
  rewrite (Csum_0 m) by (intros t Ht; rewrite bd_bl by auto; apply C_eq; cbn; ring).
  rewrite (Csum_ext k _ (fun t => B i t * X (m + t)%nat j)%C) by (intros t Ht; rewrite bd_br by auto; reflexivity). ring.
Qed.
Lemma prod_bd_l : forall m k A B X i j, (j < m)%nat -> prod (m + k) X (block_diag m A B) i j = Csum m (fun t => X i t * A t j)%C.
Proof.
  intros. unfold prod. rewrite Csum_split.
  rewrite (Csum_0 k) by (intros t Ht; rewrite bd_bl by auto; apply C_eq; cbn; ring).
  rewrite (Csum_ext m _ (fun t => X i t * A t j)%C) by (intros t Ht; rewrite bd_tl by auto; reflexivity). ring.
Qed.
Lemma prod_bd_r : forall m k A B X i j, prod (m + k) X (block_diag m A B) i (m + j)%nat = Csum k (fun t => X i (m + t)%nat * B t j)%C.
Proof.
  intros. unfold prod. rewrite Csum_split.
  rewrite (Csum_0 m) by (intros t Ht; rewrite bd_tr by auto; apply C_eq; cbn; ring).
  rewrite (Csum_ext k _ (fun t => X i (m + t)%nat * B t j)%C) by (intros t Ht; rewrite bd_br by auto; reflexivity). ring.
Qed.

(** ** The reduced unitary: diagonal top-left block, triangular neighbours *)
Section W.
Variable (m m1 : nat) (W : mat) (d : nat -> R) (R1 R2 : mat).
Hypothesis Hm : (m <= m1)%nat.
Hypothesis HW : unitary (m + m1) W.
Hypothesis Hd : forall k, (k < m)%nat -> 0 <= d k.
Hypothesis W00 : forall i j, (i < m)%nat -> (j < m)%nat -> W i j = (delta i j * RtoC (d i))%C.
Hypothesis W01 : forall i j, (i < m)%nat -> (j < m1)%nat -> W i (m + j)%nat = Cconj (R1 j i).
Hypothesis W10 : forall i j, (i < m1)%nat -> (j < m)%nat -> W (m + i)%nat j = R2 i j.
Hypothesis T1 : forall i j, (i < m1)%nat -> (j < m)%nat -> (j < i)%nat -> R1 i j = C0.
Hypothesis T2 : forall i j, (i < m1)%nat -> (j < m)%nat -> (j < i)%nat -> R2 i j = C0.
Hypothesis I1 : forall i, (i < m)%nat -> im (R1 i i) = 0.
Hypothesis I2 : forall i, (i < m)%nat -> im (R2 i i) = 0.

Lemma gram1 : forall a b, (a < m)%nat -> (b < m)%nat -> Csum m1 (fun k => Cconj (R1 k a) * R1 k b)%C = (delta a b * RtoC (1 - d a * d a))%C.
Proof.
  intros a b Ha Hb. destruct (HW a b ltac:(lia) ltac:(lia)) as [_ H]. rewrite Csum_split in H.
  rewrite (Csum_ext m _ (fun k => delta a k * (RtoC (d a) * (delta b k * RtoC (d b))))%C) in H.
  2:{ intros k Hk. rewrite !W00 by auto. unfold delta. destruct (Nat.eqb a k), (Nat.eqb b k); apply C_eq; cbn; ring. }
  rewrite (Csum_delta_l m a (fun k => RtoC (d a) * (delta b k * RtoC (d b)))%C) in H by auto.
  rewrite (Csum_ext m1 _ (fun k => Cconj (R1 k a) * R1 k b)%C) in H by (intros k Hk; rewrite !W01, Cconj_conj by auto; reflexivity).
  set (S := Csum m1 _) in *. replace S with (RtoC (d a) * (delta b a * RtoC (d b)) + S - RtoC (d a) * (delta b a * RtoC (d b)))%C by ring. rewrite H.
  unfold delta. destruct (Nat.eqb_spec a b) as [-> | E]; [rewrite Nat.eqb_refl | destruct (Nat.eqb_spec b a); [lia |]]; apply C_eq; cbn; ring.
Qed.
Lemma gram2 : forall a b, (a < m)%nat -> (b < m)%nat -> Csum m1 (fun k => Cconj (R2 k a) * R2 k b)%C = (delta a b * RtoC (1 - d a * d a))%C.
Proof.
  intros a b Ha Hb. destruct (HW a b ltac:(lia) ltac:(lia)) as [H _]. rewrite Csum_split in H.
  rewrite (Csum_ext m _ (fun k => delta a k * (RtoC (d a) * (delta b k * RtoC (d b))))%C) in H.
  2:{ intros k Hk. rewrite !W00 by auto. unfold delta. rewrite (Nat.eqb_sym k a), (Nat.eqb_sym k b). destruct (Nat.eqb_spec a k), (Nat.eqb_spec b k); subst; apply C_eq; cbn; ring. }
  rewrite (Csum_delta_l m a (fun k => RtoC (d a) * (delta b k * RtoC (d b)))%C) in H by auto.
  rewrite (Csum_ext m1 _ (fun k => Cconj (R2 k a) * R2 k b)%C) in H by (intros k Hk; rewrite !W10 by auto; reflexivity).
  set (S := Csum m1 _) in *. replace S with (RtoC (d a) * (delta b a * RtoC (d b)) + S - RtoC (d a) * (delta b a * RtoC (d b)))%C by ring. rewrite H.
  unfold delta. destruct (Nat.eqb_spec a b) as [-> | E]; [rewrite Nat.eqb_refl | destruct (Nat.eqb_spec b a); [lia |]]; apply C_eq; cbn; ring.
Qed.
Lemma d_le1 : forall k, (k < m)%nat -> d k <= 1.
Proof.
  intros k Hk. pose proof (gram1 k k Hk Hk) as H. rewrite <- Cn2_sum_conj in H. unfold delta in H. rewrite Nat.eqb_refl in H.
  apply (f_equal re) in H. cbn in H. pose proof (Rsum_nonneg m1 (fun i => Cn2 (R1 i k)) (fun i _ => Cn2_nonneg _)). pose proof (Hd k Hk). nra.
Qed.
End W.

(** A triangular p x m matrix with orthogonal columns of nonzero norm is diagonal. *)
Lemma tri_diag : forall m p (e : nat -> R) (R : mat), (m <= p)%nat ->
  (forall i j, (i < p)%nat -> (j < m)%nat -> (j < i)%nat -> R i j = C0) ->
  (forall a b, (a < m)%nat -> (b < m)%nat -> Csum p (fun k => Cconj (R k a) * R k b)%C = (delta a b * RtoC (e a))%C) ->
  (forall a, (a < m)%nat -> e a <> 0) ->
  forall i j, (i < p)%nat -> (j < m)%nat -> i <> j -> R i j = C0.
Proof.
  intros m p e R Hm HT HG He.
  assert (H : forall n i j, (i < n)%nat -> (i < p)%nat -> (j < m)%nat -> i <> j -> R i j = C0).
  { induction n as [| n IH]; [lia |]. intros i j Hn Hi Hj Hne.
    destruct (lt_dec j i) as [L | L]; [apply HT; auto |].
    assert (Hij : (i < j)%nat) by lia. assert (Him : (i < m)%nat) by lia.
    assert (E : (Cconj (R i i) * R i j)%C = C0).
    { pose proof (HG i j Him Hj) as G. rewrite delta_far in G by lia.
      rewrite (Csum_single p _ i Hi) in G.
      - rewrite G. apply C_eq; cbn; ring.
      - intros k Hk Hki. destruct (lt_dec i k).
        + rewrite (HT k i) by auto. apply C_eq; cbn; ring.
        + rewrite (IH k i) by lia. apply C_eq; cbn; ring. }
    assert (Nii : Cn2 (R i i) <> 0).
    { pose proof (HG i i Him Him) as G. unfold delta in G. rewrite Nat.eqb_refl in G.
      rewrite (Csum_single p _ i Hi) in G.
      - intro Z. apply (He i Him). replace (Cconj (R i i) * R i i)%C with (R i i * Cconj (R i i))%C in G by ring. rewrite Cmul_conj in G. apply (f_equal re) in G. cbn in G. lra.
      - intros k Hk Hki. destruct (lt_dec i k).
        + rewrite (HT k i) by auto. apply C_eq; cbn; ring.
        + rewrite (IH k i) by lia. apply C_eq; cbn; ring. }
    destruct (Cmul_integral _ _ E) as [E' | E']; [| exact E'].
    exfalso. apply Nii. apply (f_equal Cconj) in E'. rewrite Cconj_conj in E'. rewrite E'. unfold Cn2; cbn; ring. }
  intros i j Hi. apply (H (S i)); lia.
Qed.
Lemma Cmul_csign : forall z x, im z = 0 -> Cn2 z = x * x -> 0 <= x -> z = (csign z * RtoC x)%C.
Proof.
  intros [a b] x Hb Hx H0. cbn in Hb. subst b. unfold Cn2 in Hx. cbn in Hx. unfold csign, rsign; cbn [re im].
  destruct (Req_EM_T a 0) as [-> | Ha].
  - assert (x = 0) by nra. subst. apply C_eq; cbn; ring.
  - destruct (Rlt_dec 0 a).
    + assert (a = x) by nra. subst. apply C_eq; cbn; ring.
    + destruct (Rlt_dec a 0); [| lra]. assert (a = - x) by nra. subst. apply C_eq; cbn; ring.
Qed.
Lemma csign_unit : forall z, z <> C0 -> (csign z * csign z)%C = C1.
Proof.
  intros [a b] H. unfold csign, rsign; cbn [re im].
  destruct (Req_EM_T a 0) as [-> | Ha].
  - destruct (Rlt_dec 0 b); [apply C_eq; cbn; ring |]. destruct (Rlt_dec b 0); [apply C_eq; cbn; ring |].
    exfalso. apply H. apply C_eq; cbn; lra.
  - destruct (Rlt_dec 0 a); [apply C_eq; cbn; ring |]. destruct (Rlt_dec a 0); [apply C_eq; cbn; ring | lra].
Qed.
Lemma csign_0 : csign C0 = C0.
Proof. unfold csign, rsign; cbn. destruct (Req_EM_T 0 0); [| lra]. destruct (Rlt_dec 0 0); [lra |]. destruct (Rlt_dec 0 0); [lra | reflexivity]. Qed.
Lemma csign_1 : csign C1 = C1.
Proof. unfold csign, rsign; cbn. destruct (Req_EM_T 1 0); [lra |]. destruct (Rlt_dec 0 1); [reflexivity | lra]. Qed.
Lemma csign_conj : forall z, Cconj (csign z) = csign z.
Proof. intro. unfold csign. apply C_eq; cbn; ring. Qed.

Lemma dagger_dagger : forall A : mat, dagger (dagger A) = A.
Proof. intro A. unfold dagger. apply FunctionalExtensionality.functional_extensionality. intro i. apply FunctionalExtensionality.functional_extensionality. intro j. apply Cconj_conj. Qed.
Lemma unsandwich : forall n L R X, unitary n L -> unitary n R ->
  meq n (prod n (prod n (dagger L) (prod n (prod n L X) R)) (dagger R)) X.
Proof.
  intros n L R X HL HR. pose proof (sandwich n (dagger L) (dagger R) X (dagger_unitary _ _ HL) (dagger_unitary _ _ HR)) as H.
  rewrite !dagger_dagger in H. exact H.
Qed.
Lemma dagger_bd : forall m A B i j, dagger (block_diag m A B) i j = block_diag m (dagger A) (dagger B) i j.
Proof.
  intros. unfold dagger, block_diag. rewrite (andb_comm (j <? m)%nat), (andb_comm (m <=? j)%nat).
  destruct ((i <? m)%nat && (j <? m)%nat); [reflexivity |]. destruct ((m <=? i)%nat && (m <=? j)%nat); [reflexivity |]. apply Cconj_C0'.
Qed.
Lemma prod_meq_r : forall n A B B' i j, (forall i j, B i j = B' i j) -> prod n A B i j = prod n A B' i j.
Proof. intros. unfold prod. apply Csum_ext. intros. rewrite H. reflexivity. Qed.
Lemma prod_meq_l : forall n A A' B i j, (forall i j, A i j = A' i j) -> prod n A B i j = prod n A' B i j.
Proof. intros. unfold prod. apply Csum_ext. intros. rewrite H. reflexivity. Qed.

(** Scaling the columns or rows of a unitary matrix by phases keeps it unitary. *)
Lemma scale_cols : forall n U (s : nat -> C), unitary n U -> (forall k, (k < n)%nat -> (s k * Cconj (s k))%C = C1) -> unitary n (fun i j => U i j * s j)%C.
Proof.
  intros n U s H Hs i j Hi Hj. destruct (H i j Hi Hj) as [H1 H2]. split.
  - rewrite (Csum_ext n _ (fun k => (Cconj (U k i) * U k j) * (Cconj (s i) * s j))%C) by (intros; rewrite Cconj_mul; ring).
    rewrite Csum_scal_r, H1. unfold delta. destruct (Nat.eqb_spec i j) as [-> | E]; [| ring].
    replace (Cconj (s j) * s j)%C with (s j * Cconj (s j))%C by ring. rewrite Hs by auto. ring.
  - rewrite <- H2. apply Csum_ext. intros k Hk. rewrite Cconj_mul.
    transitivity (U i k * Cconj (U j k) * (s k * Cconj (s k)))%C; [ring |]. rewrite Hs by auto. ring.
Qed.
Lemma scale_rows : forall n U (s : nat -> C), unitary n U -> (forall k, (k < n)%nat -> (s k * Cconj (s k))%C = C1) -> unitary n (fun i j => s i * U i j)%C.
Proof.
  intros n U s H Hs. pose proof (transpose_unitary n _ (scale_cols n _ s (transpose_unitary n U H) Hs)) as T.
  eapply unitary_ext; [| exact T]. intros i j _ _. cbn beta. ring.
Qed.

Section CS.
Variable (n m m1 : nat) (u l0 r0 Q1 R1 Q2 R2 : mat) (d : nat -> R).
Hypothesis Hn : n = (m + m1)%nat.
Hypothesis Hm1 : m1 = if Nat.odd n then S m else m.
Hypothesis Hu : unitary n u.
Hypothesis HS : svd_of m u (l0, d, r0).
Hypothesis HQ1 : qr_of m1 m (fun i j => Csum m (fun k => Cconj (u k (m + i)%nat) * l0 k j)%C) (Q1, R1).
Hypothesis HQ2 : qr_of m1 m (fun i j => Csum m (fun k => u (m + i)%nat k * Cconj (r0 j k))%C) (Q2, R2).

Let L := block_diag m l0 Q2.
Let R' := block_diag m r0 (dagger Q1).
Let W := prod n (prod n (dagger L) u) (dagger R').

Lemma m_le : (m <= m1)%nat. Proof. rewrite Hm1. destruct (Nat.odd n); lia. Qed.
Lemma L_un : unitary n L. Proof. rewrite Hn. apply block_diag_unitary; [apply HS | apply HQ2]. Qed.
Lemma R_un : unitary n R'. Proof. rewrite Hn. apply block_diag_unitary; [apply HS | apply dagger_unitary, HQ1]. Qed.
Lemma W_un : unitary n W.
Proof. apply prod_unitary; [apply prod_unitary; [apply dagger_unitary, L_un | exact Hu] | apply dagger_unitary, R_un]. Qed.
Lemma u_LWR : meq n (prod n (prod n L W) R') u. Proof. apply sandwich; [apply L_un | apply R_un]. Qed.

Lemma W_expand : forall i j, W i j = prod (m + m1) (prod (m + m1) (block_diag m (dagger l0) (dagger Q2)) u) (block_diag m (dagger r0) (dagger (dagger Q1))) i j.
Proof.
  intros. unfold W. rewrite Hn. rewrite (prod_meq_r _ _ _ _ i j (dagger_bd m r0 (dagger Q1))).
  apply prod_meq_l. intros a b. apply prod_meq_l. intros. apply dagger_bd.
Qed.
Lemma W00' : forall i j, (i < m)%nat -> (j < m)%nat -> W i j = (delta i j * RtoC (d i))%C.
Proof.
  intros i j Hi Hj. rewrite W_expand, prod_bd_l by auto.
  destruct HS as (Hl & Hr & Hd & HA).
  set (D := fun i j => (delta i j * RtoC (d i))%C : C).
  change (delta i j * RtoC (d i))%C with (D i j). rewrite <- (unsandwich m l0 r0 D Hl Hr i j Hi Hj). unfold prod at 2.
  apply Csum_ext. intros t Ht. f_equal. rewrite bd_prod_t by auto. unfold prod at 1.
  apply Csum_ext. intros s Hs. f_equal. rewrite (HA s t Hs Ht). unfold prod. apply Csum_ext. intros k Hk. f_equal.
  unfold D. rewrite (Csum_ext m _ (fun q => delta k q * (l0 s q * RtoC (d q)))%C) by (intros; rewrite (delta_sym k); ring).
  symmetry. apply (Csum_delta_l m k (fun q => l0 s q * RtoC (d q))%C). exact Hk.
Qed.
Lemma W01' : forall i j, (i < m)%nat -> (j < m1)%nat -> W i (m + j)%nat = Cconj (R1 j i).
Proof.
  intros i j Hi Hj. rewrite W_expand, prod_bd_r, dagger_dagger.
  destruct HQ1 as (Hq & _ & _ & HA).
  rewrite (Csum_ext m1 _ (fun t => Csum m1 (fun s => Cconj (Q1 t s) * Cconj (R1 s i)) * Q1 t j)%C).
  - transitivity (Csum m1 (fun t => Csum m1 (fun s => Cconj (R1 s i) * (Cconj (Q1 t s) * Q1 t j)))%C).
    { apply Csum_ext. intros t Ht. rewrite <- Csum_scal_r. apply Csum_ext. intros. ring. }
    rewrite Csum_swap. rewrite (Csum_ext m1 _ (fun s => delta j s * Cconj (R1 s i))%C).
    + apply (Csum_delta_l m1 j (fun s => Cconj (R1 s i))). exact Hj.
    + intros s Hs. rewrite Csum_scal, (proj1 (Hq s j Hs Hj)), (delta_sym j). ring.
  - intros t Ht. f_equal. rewrite bd_prod_t by auto. unfold dagger.
    pose proof (f_equal Cconj (HA t i Ht Hi)) as E. rewrite !Csum_conj in E.
    rewrite (Csum_ext m1 _ _ (fun s _ => eq_sym (Cconj_mul (Q1 t s) (R1 s i)))). rewrite <- E.
    apply Csum_ext. intros s Hs. rewrite Cconj_mul, Cconj_conj. ring.
Qed.
Lemma W10' : forall i j, (i < m1)%nat -> (j < m)%nat -> W (m + i)%nat j = R2 i j.
Proof.
  intros i j Hi Hj. rewrite W_expand, prod_bd_l by auto.
  destruct HQ2 as (Hq & _ & _ & HA).
  rewrite (Csum_ext m _ (fun t => Csum m1 (fun s => dagger Q2 i s * u (m + s)%nat t) * dagger r0 t j)%C) by (intros t Ht; rewrite bd_prod_b; reflexivity).
  rewrite (prod_assoc_gen m m1 (dagger Q2) (fun s t => u (m + s)%nat t) (dagger r0) i j).
  rewrite (Csum_ext m1 _ (fun s => Csum m1 (fun k => Cconj (Q2 s i) * Q2 s k * R2 k j))%C).
  - rewrite Csum_swap. rewrite (Csum_ext m1 _ (fun k => delta i k * R2 k j)%C).
    + apply (Csum_delta_l m1 i (fun k => R2 k j)). exact Hi.
    + intros k Hk. rewrite Csum_scal_r. rewrite (proj1 (Hq i k Hi Hk)). reflexivity.
  - intros s Hs. unfold dagger. pose proof (HA s j Hs Hj) as E. cbn beta in E. rewrite E, <- Csum_scal. apply Csum_ext. intros. ring.
Qed.
Lemma W11' : forall i j, W (m + i)%nat (m + j)%nat = Csum m1 (fun k => Csum m1 (fun s => Cconj (Q2 s i) * u (m + s)%nat (m + k)%nat) * Q1 k j)%C.
Proof.
  intros i j. rewrite W_expand, prod_bd_r, dagger_dagger. apply Csum_ext. intros k Hk. f_equal. rewrite bd_prod_b. reflexivity.
Qed.

Lemma Wu : unitary (m + m1) W. Proof. rewrite <- Hn. exact W_un. Qed.
Lemma Hd : forall k, (k < m)%nat -> 0 <= d k. Proof. apply HS. Qed.
Lemma T1 : forall i j, (i < m1)%nat -> (j < m)%nat -> (j < i)%nat -> R1 i j = C0. Proof. apply HQ1. Qed.
Lemma T2 : forall i j, (i < m1)%nat -> (j < m)%nat -> (j < i)%nat -> R2 i j = C0. Proof. apply HQ2. Qed.
Lemma I1 : forall i, (i < m)%nat -> im (R1 i i) = 0. Proof. apply HQ1. Qed.
Lemma I2 : forall i, (i < m)%nat -> im (R2 i i) = 0. Proof. apply HQ2. Qed.
Lemma G1 : forall a b, (a < m)%nat -> (b < m)%nat -> Csum m1 (fun k => Cconj (R1 k a) * R1 k b)%C = (delta a b * RtoC (1 - d a * d a))%C.
Proof. exact (gram1 m m1 W d R1 m_le Wu W00' W01'). Qed.
Lemma G2 : forall a b, (a < m)%nat -> (b < m)%nat -> Csum m1 (fun k => Cconj (R2 k a) * R2 k b)%C = (delta a b * RtoC (1 - d a * d a))%C.
Proof. exact (gram2 m m1 W d R2 m_le Wu W00' W10'). Qed.
Lemma d1 : forall k, (k < m)%nat -> d k <= 1.
Proof. exact (d_le1 m m1 W d R1 m_le Wu Hd W00' W01'). Qed.

(** Column a of R2 vanishes when d a = 1. *)
Lemma R2_zero : forall a k, (a < m)%nat -> (k < m1)%nat -> d a = 1 -> R2 k a = C0.
Proof.
  intros a k Ha Hk E. pose proof (G2 a a Ha Ha) as H. rewrite <- Cn2_sum_conj in H. rewrite E in H.
  apply (f_equal re) in H. unfold delta in H. rewrite Nat.eqb_refl in H. cbn in H.
  assert (Z : Rsum m1 (fun i => Cn2 (R2 i a)) = 0) by lra.
  pose proof (Rsum_zero_terms m1 _ (fun i _ => Cn2_nonneg (R2 i a)) Z k Hk) as Z'. cbn beta in Z'. apply Cn2_zero_iff. exact Z'.
Qed.

Let s1 := fun k => csign (if Nat.odd n && Nat.eqb k m then C1 else R1 k k).
Let s2 := fun k => csign (if Nat.odd n && Nat.eqb k m then C1 else R2 k k).
Let phasor := Csum m1 (fun k => Csum m1 (fun j => Cconj (Q2 j (m1 - 1)%nat * s2 (m1 - 1)%nat) * u (m + j)%nat (m + k)%nat) * Cconj (Cconj (Q1 k (m1 - 1)%nat * s1 (m1 - 1)%nat)))%C.
Let ph := fun k => if Nat.odd n && Nat.eqb k m then phasor else C1.
Let p2 := fun t => if (t <? m)%nat then C1 else s2 (t - m)%nat.
Let p1 := fun t => if (t <? m)%nat then C1 else (s1 (t - m)%nat * ph (t - m)%nat)%C.
Let dd := if Nat.odd n then block_diag (2 * m) (cs_d m (fun k => asin (d k))) (fun _ _ => C1) else cs_d m (fun k => asin (d k)).
Let X : mat := fun t k => (p2 t * dd t k * p1 k)%C.

Lemma p2_t : forall i, (i < m)%nat -> p2 i = C1. Proof. intros. unfold p2. nb; [reflexivity | lia]. Qed.
Lemma p2_b : forall i, p2 (m + i)%nat = s2 i. Proof. intros. unfold p2. nb; [lia |]. f_equal. lia. Qed.
Lemma p1_t : forall i, (i < m)%nat -> p1 i = C1. Proof. intros. unfold p1. nb; [reflexivity | lia]. Qed.
Lemma p1_b : forall i, p1 (m + i)%nat = (s1 i * ph i)%C. Proof. intros. unfold p1. nb; [lia |]. replace (m + i - m)%nat with i by lia. reflexivity. Qed.
Lemma s_lt : forall (R : mat) k, (k < m)%nat -> csign (if Nat.odd n && Nat.eqb k m then C1 else R k k) = csign (R k k).
Proof. intros R k Hk. destruct (Nat.eqb_spec k m); [lia |]. rewrite andb_false_r. reflexivity. Qed.
Lemma ph_lt : forall k, (k < m)%nat -> ph k = C1.
Proof. intros k Hk. unfold ph. destruct (Nat.eqb_spec k m); [lia |]. rewrite andb_false_r. reflexivity. Qed.

Lemma sin_as : forall k, (k < m)%nat -> sin (asin (d k)) = d k.
Proof. intros k Hk. apply sin_asin. pose proof (Hd k Hk). pose proof (d1 k Hk). lra. Qed.
Lemma cos_as : forall k, (k < m)%nat -> cos (asin (d k)) * cos (asin (d k)) = 1 - d k * d k /\ 0 <= cos (asin (d k)).
Proof.
  intros k Hk. pose proof (sin2_cos2 (asin (d k))) as H. rewrite sin_as in H by auto. unfold Rsqr in H. split; [lra |].
  pose proof (asin_bound (d k)). apply cos_ge_0; lra.
Qed.

Lemma dd_tl : forall i j, (i < m)%nat -> (j < m)%nat -> dd i j = (delta i j * RtoC (d i))%C.
Proof.
  intros i j Hi Hj. assert (E : cs_d m (fun k => asin (d k)) i j = (delta i j * RtoC (d i))%C).
  { unfold cs_d, delta. nb; try lia. rewrite sin_as by auto. destruct (Nat.eqb i j); apply C_eq; cbn; ring. }
  unfold dd. destruct (Nat.odd n); [rewrite bd_tl by lia |]; exact E.
Qed.
Lemma dd_tr : forall i j, (i < m)%nat -> (j < m1)%nat -> dd i (m + j)%nat = (delta i j * RtoC (cos (asin (d i))))%C.
Proof.
  intros i j Hi Hj. assert (E : (j < m)%nat -> cs_d m (fun k => asin (d k)) i (m + j)%nat = (delta i j * RtoC (cos (asin (d i))))%C).
  { intro. unfold cs_d, delta. nb; try lia. replace (m + j - m)%nat with j by lia. destruct (Nat.eqb i j); apply C_eq; cbn; ring. }
  unfold dd. rewrite Hm1 in Hj. destruct (Nat.odd n); [| auto]. destruct (lt_dec j m); [rewrite bd_tl by lia; auto |].
  replace (m + j)%nat with (2 * m + 0)%nat by lia. rewrite bd_tr by lia. rewrite delta_far by lia. apply C_eq; cbn; ring.
Qed.
Lemma dd_bl : forall i j, (i < m1)%nat -> (j < m)%nat -> dd (m + i)%nat j = (delta i j * RtoC (cos (asin (d j))))%C.
Proof.
  intros i j Hi Hj. assert (E : (i < m)%nat -> cs_d m (fun k => asin (d k)) (m + i)%nat j = (delta i j * RtoC (cos (asin (d j))))%C).
  { intro. unfold cs_d, delta. nb; try lia. replace (m + i - m)%nat with i by lia. destruct (Nat.eqb i j); apply C_eq; cbn; ring. }
  unfold dd. rewrite Hm1 in Hi. destruct (Nat.odd n); [| auto]. destruct (lt_dec i m); [rewrite bd_tl by lia; auto |].
  replace (m + i)%nat with (2 * m + 0)%nat by lia. rewrite bd_bl by lia. rewrite delta_far by lia. apply C_eq; cbn; ring.
Qed.
Lemma dd_br : forall i j, (i < m1)%nat -> (j < m1)%nat -> dd (m + i)%nat (m + j)%nat = if Nat.eqb i m then delta i j else (delta i j * RtoC (- d i))%C.
Proof.
  intros i j Hi Hj. assert (E : (i < m)%nat -> (j < m)%nat -> cs_d m (fun k => asin (d k)) (m + i)%nat (m + j)%nat = (delta i j * RtoC (- d i))%C).
  { intros. unfold cs_d, delta. nb; try lia. replace (m + i - m)%nat with i by lia. replace (m + j - m)%nat with j by lia. rewrite sin_as by auto. destruct (Nat.eqb i j); apply C_eq; cbn; ring. }
  unfold dd. rewrite Hm1 in Hi, Hj. destruct (Nat.odd n).
  - destruct (Nat.eqb_spec i m) as [-> | Ei].
    + replace (m + m)%nat with (2 * m + 0)%nat by lia. destruct (Nat.eq_dec j m) as [-> | Ej].
      * replace (m + m)%nat with (2 * m + 0)%nat by lia. rewrite bd_br. unfold delta. rewrite Nat.eqb_refl. reflexivity.
      * rewrite bd_bl by lia. rewrite delta_far by lia. reflexivity.
    + destruct (Nat.eq_dec j m) as [-> | Ej].
      * replace (m + m)%nat with (2 * m + 0)%nat by lia. rewrite bd_tr by lia. rewrite delta_far by lia. apply C_eq; cbn; ring.
      * rewrite bd_tl by lia. apply E; lia.
  - destruct (Nat.eqb_spec i m); [lia |]. apply E; lia.
Qed.

Lemma nb_odd : forall i, (i < m1)%nat -> ~ (i < m)%nat -> i = m /\ Nat.odd n = true /\ m1 = S m.
Proof. intros i Hi Hni. rewrite Hm1 in Hi. destruct (Nat.odd n) eqn:E; [| lia]. repeat split; lia. Qed.

Section Nondeg.
Hypothesis Hne : forall k, (k < m)%nat -> d k <> 1.
Lemma e_ne : forall a, (a < m)%nat -> 1 - d a * d a <> 0.
Proof. intros a Ha H. apply (Hne a Ha). pose proof (Hd a Ha). nra. Qed.
Lemma D1 : forall i j, (i < m1)%nat -> (j < m)%nat -> i <> j -> R1 i j = C0.
Proof. exact (tri_diag m m1 (fun a => 1 - d a * d a) R1 m_le T1 G1 e_ne). Qed.
Lemma D2 : forall i j, (i < m1)%nat -> (j < m)%nat -> i <> j -> R2 i j = C0.
Proof. exact (tri_diag m m1 (fun a => 1 - d a * d a) R2 m_le T2 G2 e_ne). Qed.
Lemma diag_val : forall (R : mat), (forall i j, (i < m1)%nat -> (j < m)%nat -> i <> j -> R i j = C0) ->
  (forall i, (i < m)%nat -> im (R i i) = 0) ->
  (forall a b, (a < m)%nat -> (b < m)%nat -> Csum m1 (fun k => Cconj (R k a) * R k b)%C = (delta a b * RtoC (1 - d a * d a))%C) ->
  forall a, (a < m)%nat -> R a a = (csign (R a a) * RtoC (cos (asin (d a))))%C /\ R a a <> C0.
Proof.
  intros R HD HI HG a Ha. pose proof m_le as Hle.
  assert (N : Cn2 (R a a) = 1 - d a * d a).
  { pose proof (HG a a Ha Ha) as G. rewrite (Csum_single m1 _ a) in G.
    - unfold delta in G. rewrite Nat.eqb_refl in G. replace (Cconj (R a a) * R a a)%C with (R a a * Cconj (R a a))%C in G by ring. rewrite Cmul_conj in G. apply (f_equal re) in G. cbn in G. lra.
    - lia.
    - intros k Hk Hka. rewrite (HD k a) by auto. apply C_eq; cbn; ring. }
  split.
  - destruct (cos_as a Ha) as [C2 Cp]. apply Cmul_csign; auto. rewrite N. symmetry. exact C2.
  - intro Z. rewrite Z in N. apply (e_ne a Ha). rewrite <- N. unfold Cn2; cbn; ring.
Qed.
Lemma V1 : forall a, (a < m)%nat -> R1 a a = (csign (R1 a a) * RtoC (cos (asin (d a))))%C /\ R1 a a <> C0.
Proof. exact (diag_val R1 D1 I1 G1). Qed.
Lemma V2 : forall a, (a < m)%nat -> R2 a a = (csign (R2 a a) * RtoC (cos (asin (d a))))%C /\ R2 a a <> C0.
Proof. exact (diag_val R2 D2 I2 G2). Qed.

Lemma X_W : meq n X W.
Proof.
  intros i j Hi Hj. rewrite Hn in Hi, Hj. pose proof m_le as Hle. unfold X.
  destruct (split_idx m m1 i Hi) as [Hi' | (a & -> & Ha)]; destruct (split_idx m m1 j Hj) as [Hj' | (b & -> & Hb)].
  - rewrite p2_t, p1_t, dd_tl, W00' by auto. ring.
  - rewrite p2_t, p1_b, dd_tr, W01' by auto. destruct (Nat.eq_dec b i) as [-> | E].
    + unfold s1. rewrite s_lt, ph_lt by auto. rewrite (proj1 (V1 i Hi')) at 2. rewrite Cconj_mul, csign_conj. unfold delta. rewrite Nat.eqb_refl.
      apply C_eq; cbn; ring.
    + rewrite (D1 b i) by auto. rewrite delta_far by auto. apply C_eq; cbn; ring.
  - rewrite p2_b, p1_t, dd_bl, W10' by auto. destruct (Nat.eq_dec a j) as [-> | E].
    + unfold s2. rewrite s_lt by auto. rewrite (proj1 (V2 j Hj')) at 2. unfold delta. rewrite Nat.eqb_refl. ring.
    + rewrite (D2 a j) by auto. rewrite delta_far by auto. apply C_eq; cbn; ring.
  - rewrite p2_b, p1_b, dd_br by auto. destruct (Nat.eqb_spec a m) as [-> | Ea].
    + destruct (nb_odd m Ha ltac:(lia)) as (_ & Ho & Em1). destruct (Nat.eq_dec b m) as [-> | Eb].
      * unfold ph, s1, s2. rewrite Nat.eqb_refl, Ho. cbn [andb]. rewrite csign_1. unfold delta. rewrite Nat.eqb_refl.
        rewrite W11'. unfold phasor. replace (m1 - 1)%nat with m by lia. unfold s1, s2. rewrite Nat.eqb_refl, Ho. cbn [andb]. rewrite csign_1.
        replace (C1 * C1 * (C1 * Csum m1 (fun k => Csum m1 (fun j => Cconj (Q2 j m * C1) * u (m + j)%nat (m + k)%nat) * Cconj (Cconj (Q1 k m * C1)))))%C
          with (Csum m1 (fun k => Csum m1 (fun j => Cconj (Q2 j m * C1) * u (m + j)%nat (m + k)%nat) * Cconj (Cconj (Q1 k m * C1))))%C by ring.
        apply Csum_ext. intros k Hk. rewrite Cconj_conj. replace (Q1 k m * C1)%C with (Q1 k m) by ring. f_equal. apply Csum_ext. intros q Hq. replace (Q2 q m * C1)%C with (Q2 q m) by ring. reflexivity.
      * assert (Hbm : (b < m)%nat) by lia. rewrite delta_far by auto.
        destruct (Wu b (m + m)%nat ltac:(lia) ltac:(lia)) as [_ O]. rewrite delta_far in O by lia. rewrite Csum_split in O.
        rewrite (Csum_0 m) in O.
        2:{ intros k Hk. rewrite W00', W10' by (auto; lia). rewrite (D2 m k) by lia. apply C_eq; cbn; ring. }
        rewrite (Csum_single m1 _ b) in O; [| lia |].
        2:{ intros k Hk Hkb. rewrite W01' by auto. rewrite (D1 k b) by auto. apply C_eq; cbn; ring. }
        rewrite W01' in O by auto. assert (O' : (Cconj (R1 b b) * Cconj (W (m + m)%nat (m + b)%nat))%C = C0) by (rewrite <- O; ring).
        rewrite <- Cconj_mul in O'. apply (f_equal Cconj) in O'. rewrite Cconj_conj, Cconj_C0' in O'.
        destruct (Cmul_integral _ _ O') as [Z | Z]; [destruct (V1 b Hbm); contradiction |]. rewrite Z. apply C_eq; cbn; ring.
    + assert (Ham : (a < m)%nat) by (destruct (lt_dec a m); [auto | destruct (nb_odd a Ha ltac:(lia)); lia]).
      destruct (Wu a (m + b)%nat ltac:(lia) ltac:(lia)) as [O _]. rewrite delta_far in O by lia. rewrite Csum_split in O.
      rewrite (Csum_single m _ a Ham) in O.
      2:{ intros k Hk Hka. rewrite W00' by auto. rewrite delta_far by auto. apply C_eq; cbn; ring. }
      rewrite (Csum_single m1 _ a Ha) in O.
      2:{ intros k Hk Hka. rewrite W10' by auto. rewrite (D2 k a) by auto. apply C_eq; cbn; ring. }
      rewrite W00', W01', W10' in O by auto.
      destruct (V2 a Ham) as [E2 N2].
      assert (Hmain : (Cconj (R2 a a) * (s2 a * (delta a b * RtoC (- d a)) * (s1 b * ph b)) = Cconj (R2 a a) * W (m + a)%nat (m + b)%nat)%C).
      { replace (Cconj (R2 a a) * W (m + a)%nat (m + b)%nat)%C with (C0 - Cconj (delta a a * RtoC (d a)) * Cconj (R1 b a))%C by (rewrite <- O; ring).
        rewrite E2 at 1. rewrite Cconj_mul, csign_conj. unfold s2. rewrite s_lt by auto.
        destruct (Nat.eq_dec a b) as [<- | Eab].
        - destruct (V1 a Ham) as [E1 N1]. rewrite E1 at 1. unfold s1. rewrite s_lt, ph_lt by auto. rewrite !Cconj_mul, csign_conj. unfold delta. rewrite Nat.eqb_refl.
          pose proof (csign_unit _ N2) as U2.
          replace (csign (R2 a a) * Cconj (RtoC (cos (asin (d a)))) * (csign (R2 a a) * (C1 * RtoC (- d a)) * (csign (R1 a a) * C1)))%C
            with ((csign (R2 a a) * csign (R2 a a)) * (Cconj (RtoC (cos (asin (d a)))) * ((C1 * RtoC (- d a)) * (csign (R1 a a) * C1))))%C by ring.
          rewrite U2. apply C_eq; cbn; ring.
        - rewrite (D1 b a) by auto. rewrite delta_far by auto. apply C_eq; cbn; ring. }
      assert (Hz : (Cconj (R2 a a) * (s2 a * (delta a b * RtoC (- d a)) * (s1 b * ph b) - W (m + a)%nat (m + b)%nat) = C0)%C).
      { transitivity (Cconj (R2 a a) * (s2 a * (delta a b * RtoC (- d a)) * (s1 b * ph b)) - Cconj (R2 a a) * W (m + a)%nat (m + b)%nat)%C; [ring |]. rewrite Hmain. ring. }
      destruct (Cmul_integral _ _ Hz) as [Z | Z].
      * exfalso. apply N2. apply (f_equal Cconj) in Z. rewrite Cconj_conj, Cconj_C0' in Z. exact Z.
      * apply C_eq; [apply (f_equal re) in Z | apply (f_equal im) in Z]; cbn in Z |- *; lra.
Qed.
End Nondeg.

Lemma X_W_only : meq n X W -> forall k, (k < m)%nat -> d k <> 1.
Proof.
  intros E a Ha Ed. pose proof m_le as Hle.
  assert (Z : forall j, (j < n)%nat -> W (m + a)%nat j = C0).
  { intros j Hj. rewrite <- E by (auto; lia). unfold X. rewrite p2_b. unfold s2. rewrite s_lt by auto. rewrite (R2_zero a a Ha ltac:(lia) Ed), csign_0. apply C_eq; cbn; ring. }
  pose proof (unitary_row1 n W (m + a)%nat W_un ltac:(lia)) as N.
  rewrite Rsum_0 in N; [lra |]. intros j Hj. rewrite (Z j Hj). unfold Cn2; cbn; ring.
Qed.

Lemma inj_iff : (forall k, (k < m)%nat -> d k <> 1) <-> injective_mat m1 m (fun i j => u (m + i)%nat j).
Proof.
  pose proof m_le as Hle. destruct HS as (Hl & Hr & _ & _). destruct HQ2 as (Hq & _ & _ & HA). split.
  - intros Hne x Hx.
    pose proof (tri_diag m m1 (fun a => 1 - d a * d a) R2 m_le T2 G2 (e_ne Hne)) as D2.
    pose proof (diag_val Hne R2 D2 I2 G2) as V2.
    set (y := fun j => Csum m (fun t => r0 j t * x t)%C).
    assert (Exy : forall t, (t < m)%nat -> x t = Csum m (fun j => Cconj (r0 j t) * y j)%C).
    { intros t Ht. unfold y. rewrite (Csum_ext m _ (fun j => Csum m (fun s => (Cconj (r0 j t) * r0 j s) * x s))%C).
      - rewrite Csum_swap. rewrite (Csum_ext m _ (fun s => delta t s * x s)%C).
        + symmetry. apply (Csum_delta_l m t x). exact Ht.
        + intros s Hs. rewrite Csum_scal_r, (proj1 (Hr t s Ht Hs)). reflexivity.
      - intros j Hj. rewrite <- Csum_scal. apply Csum_ext. intros. ring. }
    assert (Ry : forall i, (i < m)%nat -> Csum m (fun j => R2 i j * y j)%C = C0).
    { intros i Hi. rewrite (Csum_ext m _ (fun j => Csum m1 (fun s => Cconj (Q2 s i) * Csum m (fun t => u (m + s)%nat t * Cconj (r0 j t))) * y j)%C).
      2:{ intros j Hj. f_equal. rewrite (Csum_ext m1 _ (fun s => Csum m1 (fun k => Cconj (Q2 s i) * Q2 s k * R2 k j))%C).
          - rewrite Csum_swap. rewrite (Csum_ext m1 _ (fun k => delta i k * R2 k j)%C).
            + symmetry. apply (Csum_delta_l m1 i (fun k => R2 k j)). lia.
            + intros k Hk. rewrite Csum_scal_r. rewrite (proj1 (Hq i k ltac:(lia) Hk)). reflexivity.
          - intros s Hs. pose proof (HA s j Hs Hj) as E. cbn beta in E. rewrite E, <- Csum_scal. apply Csum_ext. intros. ring. }
      rewrite (prod_assoc_gen m m1 (fun i s => Cconj (Q2 s i)) (fun s j => Csum m (fun t => u (m + s)%nat t * Cconj (r0 j t))%C) (fun j _ => y j) i 0%nat).
      apply Csum_0. intros s Hs. rewrite (prod_assoc_gen m m (fun s t => u (m + s)%nat t) (fun t j => Cconj (r0 j t)) (fun j _ => y j) s 0%nat).
      rewrite (Csum_ext m _ (fun l => u (m + s)%nat l * x l)%C) by (intros l Hl'; rewrite <- Exy by auto; reflexivity).
      rewrite (Hx s Hs). apply C_eq; cbn; ring. }
    assert (Hy : forall i, (i < m)%nat -> y i = C0).
    { intros i Hi. pose proof (Ry i Hi) as E. rewrite (Csum_single m _ i Hi) in E.
      - destruct (Cmul_integral _ _ E) as [Z | Z]; [destruct (V2 i Hi); contradiction | exact Z].
      - intros j Hj Hji. rewrite (D2 i j) by (auto; lia). apply C_eq; cbn; ring. }
    intros t Ht. rewrite (Exy t Ht). apply Csum_0. intros j Hj. rewrite (Hy j Hj). apply C_eq; cbn; ring.
  - intros Hinj a Ha Ed. specialize (Hinj (fun t => Cconj (r0 a t))).
    assert (Z : forall k, (k < m)%nat -> Cconj (r0 a k) = C0).
    { apply Hinj. intros i Hi. pose proof (HA i a Hi Ha) as E. cbn beta in E |- *. rewrite E. apply Csum_0. intros k Hk. rewrite (R2_zero a k Ha Hk Ed). apply C_eq; cbn; ring. }
    pose proof (unitary_row1 m r0 a Hr Ha) as N. rewrite Rsum_0 in N; [lra |]. intros j Hj. pose proof (Z j Hj) as Zj.
    apply (f_equal Cconj) in Zj. rewrite Cconj_conj in Zj. rewrite Zj. unfold Cn2; cbn; ring.
Qed.

(** csinv of the factors is L X R. *)
Lemma left_P : forall i t, (t < n)%nat -> block_diag m l0 (fun i j => Q2 i j * s2 j)%C i t = (L i t * p2 t)%C.
Proof.
  intros i t _. unfold L, block_diag, p2. nb; try lia; cbn [andb]; try (apply C_eq; cbn; ring).
Qed.
Lemma right_P : forall k j, (k < n)%nat ->
  block_diag m r0 (if Nat.odd n then fun i j => if Nat.eqb i (m1 - 1) then (Cconj (Q1 j i * s1 i) * phasor)%C else Cconj (Q1 j i * s1 i)%C
                   else fun i j => Cconj (Q1 j i * s1 i)%C) k j = (p1 k * R' k j)%C.
Proof.
  intros k j Hk. rewrite Hn in Hk. unfold R', block_diag, p1. nb; try lia; cbn [andb]; try (apply C_eq; cbn; ring).
  unfold ph, dagger. rewrite Hm1 in Hk |- *. destruct (Nat.odd n); cbn [andb].
  - replace (S m - 1)%nat with m by lia. cbn beta. assert (Es : Cconj (s1 (k - m)%nat) = s1 (k - m)%nat) by apply csign_conj.
    destruct (Nat.eqb (k - m) m); rewrite Cconj_mul, Es; ring.
  - cbn beta. assert (Es : Cconj (s1 (k - m)%nat) = s1 (k - m)%nat) by apply csign_conj. rewrite Cconj_mul, Es; ring.
Qed.
Lemma csinv_LXR : exists v, csinv m m1 m l0 (fun i j => Q2 i j * s2 j)%C r0
    (if Nat.odd n then fun i j => if Nat.eqb i (m1 - 1) then (Cconj (Q1 j i * s1 i) * phasor)%C else Cconj (Q1 j i * s1 i)%C
                   else fun i j => Cconj (Q1 j i * s1 i)%C) (fun k => asin (d k)) = Some v /\
  meq n v (prod n (prod n L X) R').
Proof.
  unfold csinv. set (RR := if Nat.odd n then _ else _).
  assert (Es : (if Nat.eqb m m1 then cs_d m (fun k => asin (d k)) else block_diag (2 * m) (cs_d m (fun k => asin (d k))) (fun _ _ => C1)) = dd).
  { unfold dd. rewrite Hm1. destruct (Nat.odd n); [destruct (Nat.eqb_spec m (S m)); [lia | reflexivity] | rewrite Nat.eqb_refl; reflexivity]. }
  rewrite Es.
  assert (En : Nat.eqb (if Nat.eqb m m1 then (2 * m)%nat else (2 * m + 1)%nat) (m + m1) = true).
  { apply Nat.eqb_eq. rewrite Hm1. destruct (Nat.odd n); [destruct (Nat.eqb_spec m (S m)); lia | rewrite Nat.eqb_refl; lia]. }
  rewrite En. eexists. split; [reflexivity |]. rewrite <- Hn. change matmul with prod.
  intros i j Hi Hj. unfold prod.
  rewrite (Csum_ext n (fun k => Csum n (fun k0 => block_diag m l0 (fun i j => Q2 i j * s2 j)%C i k0 * dd k0 k) * block_diag m r0 RR k j)%C
    (fun k => Csum n (fun t => L i t * X t k) * R' k j)%C); [reflexivity |].
  intros k Hk. rewrite right_P by auto.
  transitivity (Csum n (fun t => L i t * p2 t * dd t k) * p1 k * R' k j)%C.
  - rewrite (Csum_ext n _ (fun t => L i t * p2 t * dd t k)%C) by (intros t Ht; rewrite left_P by auto; reflexivity). ring.
  - f_equal. rewrite <- Csum_scal_r. apply Csum_ext. intros. unfold X. ring.
Qed.
Lemma roundtrip_core : (exists v, csinv m m1 m l0 (fun i j => Q2 i j * s2 j)%C r0
    (if Nat.odd n then fun i j => if Nat.eqb i (m1 - 1) then (Cconj (Q1 j i * s1 i) * phasor)%C else Cconj (Q1 j i * s1 i)%C
                   else fun i j => Cconj (Q1 j i * s1 i)%C) (fun k => asin (d k)) = Some v /\ meq n v u) <->
  injective_mat m1 m (fun i j => u (m + i)%nat j).
Proof.
  destruct csinv_LXR as (v & Ev & Mv). rewrite Ev. rewrite <- inj_iff. split.
  - intros (v' & E & M). apply X_W_only. assert (v' = v) by congruence. subst v'.
    eapply meq_trans; [apply meq_sym, (unsandwich n L R' X L_un R_un) |].
    eapply meq_trans; [| apply meq_refl]. unfold W.
    apply prod_meq; [| apply meq_refl]. apply prod_meq; [apply meq_refl |]. eapply meq_trans; [apply meq_sym, Mv | exact M].
  - intro Hne. exists v. split; [reflexivity |]. eapply meq_trans; [exact Mv |]. eapply meq_trans; [| exact u_LWR].
    apply prod_meq; [| apply meq_refl]. apply prod_meq; [apply meq_refl |]. apply X_W. exact Hne.
Qed.

Lemma l1_unitary_iff : unitary m1 (fun i j => Q2 i j * s2 j)%C <-> forall k, (k < m)%nat -> d k <> 1.
Proof.
  pose proof m_le as Hle. split.
  - intros H a Ha Ed. pose proof (unitary_col1 m1 _ a H ltac:(lia)) as N. rewrite Rsum_0 in N; [lra |].
    intros j Hj. cbn beta. unfold s2. rewrite s_lt by auto. rewrite (R2_zero a a Ha ltac:(lia) Ed), csign_0. unfold Cn2; cbn; ring.
  - intro Hne. apply scale_cols; [apply HQ2 |]. intros k Hk. unfold s2. rewrite csign_conj. apply csign_unit.
    destruct (lt_dec k m) as [L' | L'].
    + destruct (Nat.eqb_spec k m); [lia |]. rewrite andb_false_r. apply (V2 Hne k L').
    + destruct (nb_odd k Hk L') as (-> & -> & _). rewrite Nat.eqb_refl. cbn. intro E. apply (f_equal re) in E. cbn in E. lra.
Qed.
Lemma r1_unitary : (forall k, (k < m)%nat -> d k <> 1) ->
  unitary m1 (if Nat.odd n then fun i j => if Nat.eqb i (m1 - 1) then (Cconj (Q1 j i * s1 i) * phasor)%C else Cconj (Q1 j i * s1 i)%C
                   else fun i j => Cconj (Q1 j i * s1 i)%C).
Proof.
  intro Hne. pose proof m_le as Hle.
  assert (S1 : forall k, (k < m1)%nat -> (s1 k * Cconj (s1 k))%C = C1).
  { intros k Hk. unfold s1. rewrite csign_conj. apply csign_unit. destruct (lt_dec k m) as [L' | L'].
    + destruct (Nat.eqb_spec k m); [lia |]. rewrite andb_false_r. apply (V1 Hne k L').
    + destruct (nb_odd k Hk L') as (-> & -> & _). rewrite Nat.eqb_refl. cbn. intro E. apply (f_equal re) in E. cbn in E. lra. }
  assert (Ph : Nat.odd n = true -> (phasor * Cconj phasor)%C = C1).
  { intro Ho. assert (Em1 : m1 = S m) by (rewrite Hm1, Ho; reflexivity).
    pose proof (unitary_row1 n W (m + m)%nat W_un ltac:(lia)) as N. rewrite Hn in N. rewrite (Rsum_single (m + m1) _ (m + m)%nat) in N.
    - rewrite <- (X_W Hne) in N by lia. unfold X in N. rewrite p2_b, p1_b, dd_br in N by lia. rewrite Nat.eqb_refl in N.
      unfold ph, s1, s2 in N. rewrite Nat.eqb_refl, Ho in N. cbn [andb] in N. rewrite csign_1 in N. unfold delta in N. rewrite Nat.eqb_refl in N.
      replace (C1 * C1 * (C1 * phasor))%C with phasor in N by ring. rewrite Cmul_conj, N. reflexivity.
    - lia.
    - intros j Hj Hne'. rewrite <- (X_W Hne) by lia. unfold X. destruct (split_idx m m1 j ltac:(lia)) as [Hj' | (b & -> & Hb)].
      + rewrite dd_bl, delta_far by lia. unfold Cn2; cbn; ring.
      + rewrite dd_br, Nat.eqb_refl, delta_far by lia. unfold Cn2; cbn; ring. }
  assert (U : unitary m1 (fun i j => (s1 i * ph i) * dagger Q1 i j)%C).
  { apply (scale_rows m1 (dagger Q1) (fun i => s1 i * ph i)%C); [apply dagger_unitary, HQ1 |]. intros k Hk. rewrite Cconj_mul.
    transitivity ((s1 k * Cconj (s1 k)) * (ph k * Cconj (ph k)))%C; [ring |]. rewrite S1 by auto.
    unfold ph. destruct (Nat.odd n) eqn:Ho; cbn [andb].
    - destruct (Nat.eqb k m); [rewrite Ph by auto; ring |]. apply C_eq; cbn; ring.
    - apply C_eq; cbn; ring. }
  eapply unitary_ext; [| exact U]. intros i j Hi Hj. cbn beta.
  assert (Es : Cconj (s1 i) = s1 i) by apply csign_conj. unfold dagger, ph. clear - Es Hm1. rewrite Hm1.
  destruct (Nat.odd n); cbn [andb].
  - replace (S m - 1)%nat with m by lia. destruct (Nat.eqb i m); rewrite Cconj_mul, Es; ring.
  - rewrite Cconj_mul, Es; ring.
Qed.
Lemma theta_range : forall k, (k < m)%nat -> 0 <= asin (d k) <= PI / 2 /\ (d k <> 1 -> asin (d k) < PI / 2).
Proof.
  intros k Hk. pose proof (asin_bound (d k)) as B. pose proof (sin_as k Hk) as Es. pose proof (Hd k Hk). pose proof PI_RGT_0. repeat split; try lra.
  - destruct (Rlt_dec (asin (d k)) 0); [| lra]. assert (sin (asin (d k)) < 0) by (apply sin_lt_0_var; lra). lra.
  - intro Hne. destruct (Req_dec (asin (d k)) (PI / 2)) as [E | E]; [| lra]. exfalso. apply Hne. rewrite <- Es, E. apply sin_PI2.
Qed.
Lemma factors_core : let l1 := (fun i j => Q2 i j * s2 j)%C in
  let r1 := (if Nat.odd n then fun i j => if Nat.eqb i (m1 - 1) then (Cconj (Q1 j i * s1 i) * phasor)%C else Cconj (Q1 j i * s1 i)%C
                   else fun i j => Cconj (Q1 j i * s1 i)%C) in
  (unitary m1 l1 /\ unitary m1 r1) <-> injective_mat m1 m (fun i j => u (m + i)%nat j).
Proof.
  intros l1 r1. rewrite <- inj_iff. split; [intros [H _]; apply l1_unitary_iff; exact H |].
  intro H. split; [apply l1_unitary_iff | apply r1_unitary]; exact H.
Qed.
End CS.
