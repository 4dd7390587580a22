(** dirichlet_matrix and csinv (C22, C23). *)
From Coq Require Import Reals Lra Lia List Arith Bool Psatz FunctionalExtensionality.
From Verif Require Import Cx Arr Spec_circuit Model_coupling Model_matrix Proof_linalg.
Local Open Scope R_scope.

(** ** Block diagonal matrices *)
Lemma Nltb : forall a b, (a <? b)%nat = true <-> (a < b)%nat. Proof. apply Nat.ltb_lt. Qed.
Ltac nb := repeat match goal with
  | |- context [(?a <? ?b)%nat] => destruct (Nat.ltb_spec a b)
  | |- context [(?a <=? ?b)%nat] => destruct (Nat.leb_spec a b)
  end; cbn [andb].

Lemma bd_tl : forall m A B i j, (i < m)%nat -> (j < m)%nat -> block_diag m A B i j = A i j.
Proof. intros. unfold block_diag. nb; try lia; reflexivity. Qed.
Lemma bd_br : forall m A B i j, block_diag m A B (m + i)%nat (m + j)%nat = B i j.
Proof. intros. unfold block_diag. nb; try lia. f_equal; lia. Qed.
Lemma bd_tr : forall m A B i j, (i < m)%nat -> block_diag m A B i (m + j)%nat = C0.
Proof. intros. unfold block_diag. nb; try lia; reflexivity. Qed.
Lemma bd_bl : forall m A B i j, (j < m)%nat -> block_diag m A B (m + i)%nat j = C0.
Proof. intros. unfold block_diag. nb; try lia; reflexivity. Qed.

Lemma delta_shift : forall m i j, delta (m + i)%nat (m + j)%nat = delta i j.
Proof. intros. unfold delta. destruct (Nat.eqb_spec (m + i) (m + j)), (Nat.eqb_spec i j); auto; lia. Qed.
Lemma delta_far : forall i j, i <> j -> delta i j = C0.
Proof. intros i j H. unfold delta. destruct (Nat.eqb_spec i j); congruence. Qed.

Lemma split_idx : forall m k i, (i < m + k)%nat -> (i < m)%nat \/ exists a, i = (m + a)%nat /\ (a < k)%nat.
Proof. intros m k i H. destruct (lt_dec i m); auto. right. exists (i - m)%nat. lia. Qed.

Lemma Cconj_C0' : Cconj C0 = C0. Proof. apply C_eq; cbn; ring. Qed.

Lemma block_diag_unitary : forall m k A B, unitary m A -> unitary k B -> unitary (m + k) (block_diag m A B).
Proof.
  intros m k A B HA HB i j Hi Hj.
  destruct (split_idx m k i Hi) as [Hi' | (a & -> & Ha)]; destruct (split_idx m k j Hj) as [Hj' | (b & -> & Hb)];
   (split; rewrite Csum_split).
  - rewrite (Csum_ext m _ (fun l => Cconj (A l i) * A l j)%C) by (intros l Hl; rewrite !bd_tl by auto; reflexivity).
    rewrite (proj1 (HA i j Hi' Hj')). rewrite (Csum_0 k); [ring |]. intros l Hl. rewrite !bd_bl by auto. ring.
  - rewrite (Csum_ext m _ (fun l => A i l * Cconj (A j l))%C) by (intros l Hl; rewrite !bd_tl by auto; reflexivity).
    rewrite (proj2 (HA i j Hi' Hj')). rewrite (Csum_0 k); [ring |]. intros l Hl. rewrite !bd_tr by auto. ring.
  - rewrite delta_far by lia. rewrite !Csum_0; [ring | |]; intros l Hl; (first [rewrite bd_bl by auto; rewrite ?Cconj_C0'; ring | rewrite bd_tr by auto; rewrite ?Cconj_C0'; ring | rewrite (bd_bl m A B l j) by auto; ring | rewrite (bd_bl m A B a l) by auto; ring | rewrite (bd_tr m A B j l) by auto; rewrite Cconj_C0'; ring]).
  - rewrite delta_far by lia. rewrite !Csum_0; [ring | |]; intros l Hl; (first [rewrite bd_bl by auto; rewrite ?Cconj_C0'; ring | rewrite bd_tr by auto; rewrite ?Cconj_C0'; ring | rewrite (bd_bl m A B l j) by auto; ring | rewrite (bd_bl m A B a l) by auto; ring | rewrite (bd_tr m A B j l) by auto; rewrite Cconj_C0'; ring]).
  - rewrite delta_far by lia. rewrite !Csum_0; [ring | |]; intros l Hl; (first [rewrite bd_bl by auto; rewrite ?Cconj_C0'; ring | rewrite bd_tr by auto; rewrite ?Cconj_C0'; ring | rewrite (bd_bl m A B l j) by auto; ring | rewrite (bd_bl m A B a l) by auto; ring | rewrite (bd_tr m A B j l) by auto; rewrite Cconj_C0'; ring]).
  - rewrite delta_far by lia. rewrite !Csum_0; [ring | |]; intros l Hl; (first [rewrite bd_bl by auto; rewrite ?Cconj_C0'; ring | rewrite bd_tr by auto; rewrite ?Cconj_C0'; ring | rewrite (bd_bl m A B l j) by auto; ring | rewrite (bd_bl m A B a l) by auto; ring | rewrite (bd_tr m A B j l) by auto; rewrite Cconj_C0'; ring]).
  - rewrite (Csum_0 m) by (intros l Hl; rewrite !bd_tr by auto; ring).
    rewrite (Csum_ext k _ (fun l => Cconj (B l a) * B l b)%C) by (intros l Hl; rewrite !bd_br; reflexivity).
    rewrite (proj1 (HB a b Ha Hb)), delta_shift. ring.
  - rewrite (Csum_0 m) by (intros l Hl; rewrite !bd_bl by auto; ring).
    rewrite (Csum_ext k _ (fun l => B a l * Cconj (B b l))%C) by (intros l Hl; rewrite !bd_br; reflexivity).
    rewrite (proj2 (HB a b Ha Hb)), delta_shift. ring.
Qed.

Lemma delta_unitary : forall n, unitary n delta.
Proof.
  intros n i j Hi Hj. split.
  - rewrite (Csum_ext n _ (fun k => delta i k * delta i j)%C).
    + rewrite (Csum_delta_l n i (fun _ => delta i j)); auto.
    + intros k Hk. unfold delta. destruct (Nat.eqb_spec k i) as [-> | E].
      * rewrite Nat.eqb_refl. destruct (Nat.eqb i j); apply C_eq; cbn; ring.
      * destruct (Nat.eqb_spec i k); [lia |]. destruct (Nat.eqb k j), (Nat.eqb i j); apply C_eq; cbn; ring.
  - rewrite (Csum_ext n _ (fun k => delta i k * (delta i j))%C).
    + rewrite (Csum_delta_l n i (fun _ => delta i j)); auto.
    + intros k Hk. unfold delta. destruct (Nat.eqb_spec i k) as [-> | E].
      * rewrite (Nat.eqb_sym j k). destruct (Nat.eqb k j); apply C_eq; cbn; ring.
      * apply C_eq; cbn; ring.
Qed.

Lemma unitary_ext : forall n A B, (forall i j, (i < n)%nat -> (j < n)%nat -> A i j = B i j) -> unitary n A -> unitary n B.
Proof.
  intros n A B E H i j Hi Hj. destruct (H i j Hi Hj) as [H1 H2]. split; [rewrite <- H1 | rewrite <- H2];
   apply Csum_ext; intros k Hk; rewrite !E by auto; reflexivity.
Qed.
Lemma unitary_1 : unitary 1 (fun _ _ => C1).
Proof. intros i j Hi Hj. assert (i = 0%nat) by lia. assert (j = 0%nat) by lia. subst. split; cbn; apply C_eq; cbn; ring. Qed.

(** ** The cosine-sine middle factor *)
Lemma cs_d_unitary : forall m theta, unitary (m + m) (cs_d m theta).
Proof.
  intros m theta.
  assert (Hsym : forall i j, (i < m + m)%nat -> (j < m + m)%nat -> cs_d m theta i j = cs_d m theta j i).
  { intros i j Hi Hj. unfold cs_d. nb; try lia.
    - destruct (Nat.eqb_spec i j) as [-> | E]; [rewrite Nat.eqb_refl; reflexivity |]. destruct (Nat.eqb_spec j i); [lia | reflexivity].
    - destruct (Nat.eqb_spec i (j - m)) as [E | E]; destruct (Nat.eqb_spec (j - m) i); try lia; auto.
    - destruct (Nat.eqb_spec (i - m) j) as [E | E]; destruct (Nat.eqb_spec j (i - m)); try lia; auto.
    - destruct (Nat.eqb_spec (i - m) (j - m)) as [-> | E]; [rewrite Nat.eqb_refl; reflexivity |]. destruct (Nat.eqb_spec (j - m) (i - m)); [lia | reflexivity]. }
  assert (Hreal : forall i j, Cconj (cs_d m theta i j) = cs_d m theta i j).
  { intros i j. unfold cs_d. repeat match goal with |- context [if ?b then _ else _] => destruct b end; apply C_eq; cbn; ring. }
  assert (Hrow : forall i j, (i < m + m)%nat -> (j < m + m)%nat -> Csum (m + m) (fun k => cs_d m theta i k * cs_d m theta j k)%C = delta i j).
  { intros i j Hi Hj. rewrite Csum_split.
    assert (TL : forall a b, (a < m)%nat -> (b < m)%nat -> cs_d m theta a b = (delta a b * RtoC (sin (theta a)))%C).
    { intros a b Ha Hb. unfold cs_d, delta. nb; try lia. destruct (Nat.eqb a b); apply C_eq; cbn; ring. }
    assert (TR : forall a b, (a < m)%nat -> cs_d m theta a (m + b)%nat = (delta a b * RtoC (cos (theta a)))%C).
    { intros a b Ha. unfold cs_d, delta. nb; try lia. replace (m + b - m)%nat with b by lia. destruct (Nat.eqb a b); apply C_eq; cbn; ring. }
    assert (BL : forall a b, (b < m)%nat -> cs_d m theta (m + a)%nat b = (delta a b * RtoC (cos (theta a)))%C).
    { intros a b Hb. unfold cs_d, delta. nb; try lia. replace (m + a - m)%nat with a by lia. destruct (Nat.eqb_spec a b) as [-> | E]; apply C_eq; cbn; ring. }
    assert (BR : forall a b, cs_d m theta (m + a)%nat (m + b)%nat = (delta a b * RtoC (- sin (theta a)))%C).
    { intros a b. unfold cs_d, delta. nb; try lia. replace (m + a - m)%nat with a by lia. replace (m + b - m)%nat with b by lia. destruct (Nat.eqb a b); apply C_eq; cbn; ring. }
    assert (S : forall a b (x y : R), (a < m)%nat -> Csum m (fun k => delta a k * RtoC x * (delta b k * RtoC y))%C = (delta a b * RtoC (x * y))%C).
    { intros a b x y Ha. rewrite (Csum_ext m _ (fun k => delta a k * (RtoC x * (delta b k * RtoC y)))%C) by (intros; ring).
      rewrite (Csum_delta_l m a (fun k => RtoC x * (delta b k * RtoC y))%C) by auto.
      unfold delta. rewrite (Nat.eqb_sym b a). destruct (Nat.eqb a b); apply C_eq; cbn; ring. }
    assert (P : forall t, sin t * sin t + cos t * cos t = 1) by (intro t; pose proof (sin2_cos2 t) as E; unfold Rsqr in E; exact E).
    destruct (split_idx m m i Hi) as [Hi' | (a & -> & Ha)]; destruct (split_idx m m j Hj) as [Hj' | (b & -> & Hb)].
    - rewrite (Csum_ext m _ (fun k => delta i k * RtoC (sin (theta i)) * (delta j k * RtoC (sin (theta j))))%C) by (intros; rewrite !TL by auto; reflexivity).
      rewrite (Csum_ext m (fun k => cs_d m theta i (m + k)%nat * _)%C (fun k => delta i k * RtoC (cos (theta i)) * (delta j k * RtoC (cos (theta j))))%C) by (intros; rewrite !TR by auto; reflexivity).
      rewrite !S by auto. unfold delta. destruct (Nat.eqb_spec i j) as [-> | E]; apply C_eq; cbn; try ring. specialize (P (theta j)). lra.
    - rewrite (Csum_ext m _ (fun k => delta i k * RtoC (sin (theta i)) * (delta b k * RtoC (cos (theta b))))%C) by (intros k Hk; rewrite (TL i k), (BL b k) by auto; reflexivity).
      rewrite (Csum_ext m (fun k => cs_d m theta i (m + k)%nat * _)%C (fun k => delta i k * RtoC (cos (theta i)) * (delta b k * RtoC (- sin (theta b))))%C) by (intros k Hk; rewrite (TR i k), (BR b k) by auto; reflexivity).
      rewrite !S by auto. rewrite (delta_far i (m + b)%nat) by lia. unfold delta. destruct (Nat.eqb_spec i b) as [-> | E]; apply C_eq; cbn; ring.
    - rewrite (Csum_ext m _ (fun k => delta a k * RtoC (cos (theta a)) * (delta j k * RtoC (sin (theta j))))%C) by (intros k Hk; rewrite (TL j k), (BL a k) by auto; reflexivity).
      rewrite (Csum_ext m (fun k => cs_d m theta (m + a)%nat (m + k)%nat * _)%C (fun k => delta a k * RtoC (- sin (theta a)) * (delta j k * RtoC (cos (theta j))))%C) by (intros k Hk; rewrite (TR j k), (BR a k) by auto; reflexivity).
      rewrite !S by auto. rewrite (delta_far (m + a)%nat j) by lia. unfold delta. destruct (Nat.eqb_spec a j) as [-> | E]; apply C_eq; cbn; ring.
    - rewrite (Csum_ext m _ (fun k => delta a k * RtoC (cos (theta a)) * (delta b k * RtoC (cos (theta b))))%C) by (intros; rewrite !BL by auto; reflexivity).
      rewrite (Csum_ext m (fun k => cs_d m theta (m + a)%nat (m + k)%nat * _)%C (fun k => delta a k * RtoC (- sin (theta a)) * (delta b k * RtoC (- sin (theta b))))%C) by (intros; rewrite !BR by auto; reflexivity).
      rewrite !S by auto. rewrite delta_shift. unfold delta. destruct (Nat.eqb_spec a b) as [-> | E]; apply C_eq; cbn; try ring. specialize (P (theta b)). lra. }
  intros i j Hi Hj. split; rewrite <- (Hrow i j Hi Hj); apply Csum_ext; intros k Hk; rewrite Hreal; auto.
  rewrite (Hsym k i), (Hsym k j) by auto. reflexivity.
Qed.

Lemma csinv_unitary : forall m0 m1 l0 l1 r0 r1 theta, (m1 = m0 \/ m1 = S m0) ->
  unitary m0 l0 -> unitary m1 l1 -> unitary m0 r0 -> unitary m1 r1 ->
  exists u, csinv m0 m1 m0 l0 l1 r0 r1 theta = Some u /\ unitary (m0 + m1) u.
Proof.
  intros m0 m1 l0 l1 r0 r1 theta Hm H1 H2 H3 H4. unfold csinv.
  assert (Hp : forall A B, unitary (m0 + m1) A -> unitary (m0 + m1) B -> unitary (m0 + m1) (matmul (m0 + m1) A B)).
  { intros A B HA HB. exact (prod_unitary _ _ _ HA HB). }
  destruct (Nat.eqb_spec m0 m1) as [E | E].
  - subst m1. assert (Es : Nat.eqb (2 * m0) (m0 + m0) = true) by (apply Nat.eqb_eq; lia). rewrite Es. eexists. split; [reflexivity |].
    apply Hp; [apply Hp |]; auto using block_diag_unitary, cs_d_unitary.
  - destruct Hm as [Hm | Hm]; [congruence |].
    assert (Es : Nat.eqb (2 * m0 + 1) (m0 + m1) = true) by (apply Nat.eqb_eq; lia). rewrite Es. eexists. split; [reflexivity |].
    apply Hp; [apply Hp |]; auto using block_diag_unitary.
    replace (m0 + m1)%nat with (2 * m0 + 1)%nat by lia. apply block_diag_unitary; [| apply unitary_1].
    replace (2 * m0)%nat with (m0 + m0)%nat by lia. apply cs_d_unitary.
Qed.
Lemma csinv_raises : forall m0 m1 l0 l1 r0 r1 theta, m1 <> m0 -> m1 <> S m0 -> csinv m0 m1 m0 l0 l1 r0 r1 theta = None.
Proof.
  intros. unfold csinv. destruct (Nat.eqb_spec m0 m1); [congruence |]. destruct (Nat.eqb_spec (2 * m0 + 1) (m0 + m1)); [lia | reflexivity].
Qed.

(** ** dirichlet_matrix *)
Section Dir.
Variables (n : nat) (v : vec).
Hypothesis Hn : (0 < n)%nat.
Hypothesis Hv : v 0%nat <> C0.
Let a k := Cabs (v k).
Let Y k := dm_ysum v k.
Let D (k j : nat) : R :=
  match k with O => a j / sqrt (Y (n - 1)%nat)
  | S k' => if (j <? k)%nat then a k * a j / sqrt (Y k' * Y k) else if Nat.eqb j k then - Y k' / sqrt (Y k' * Y k) else 0 end.

Lemma a_pos : forall k, 0 <= a k. Proof. intro; unfold a, Cabs; apply sqrt_pos. Qed.
Lemma a0_pos : 0 < a 0.
Proof.
  unfold a, Cabs. apply sqrt_lt_R0. destruct (v 0%nat) as [x y] eqn:E. unfold Cn2; cbn.
  destruct (Req_dec x 0) as [-> | Hx]; [| nra]. destruct (Req_dec y 0) as [-> | Hy]; [exfalso; apply Hv; reflexivity | nra].
Qed.
Lemma y_sq : forall k, dm_y v k = a k * a k. Proof. intro. unfold dm_y, a. ring. Qed.
Lemma Y_S : forall k, Y (S k) = Y k + a (S k) * a (S k).
Proof. intro k. unfold Y, dm_ysum. cbn [Rsum]. rewrite !y_sq. reflexivity. Qed.
Lemma Y_0 : Y 0 = a 0%nat * a 0%nat.
Proof. unfold Y, dm_ysum. cbn [Rsum]. rewrite y_sq. ring. Qed.
Lemma Y_pos : forall k, 0 < Y k.
Proof. induction k as [| k IH]; [rewrite Y_0; pose proof a0_pos; nra | rewrite Y_S; pose proof (a_pos (S k)); nra]. Qed.
Lemma Y_sum : forall k, Rsum (S k) (fun j => a j * a j) = Y k.
Proof. intro k. unfold Y, dm_ysum. apply Rsum_ext. intros. rewrite y_sq. reflexivity. Qed.
Lemma s_sq : forall k, sqrt (Y k * Y (S k)) * sqrt (Y k * Y (S k)) = Y k * Y (S k).
Proof. intro k. apply sqrt_sqrt. pose proof (Y_pos k). pose proof (Y_pos (S k)). nra. Qed.
Lemma s_pos : forall k, 0 < sqrt (Y k * Y (S k)).
Proof. intro k. apply sqrt_lt_R0. pose proof (Y_pos k). pose proof (Y_pos (S k)). nra. Qed.

Lemma u4_D : forall i j, (i < n)%nat -> (j < n)%nat -> dm_u4 n v i j = RtoC (D i j).
Proof.
  intros i j Hi Hj. unfold dm_u4, D. destruct i as [| k].
  - f_equal. rewrite y_sq. rewrite sqrt_div_alt by apply Y_pos. rewrite sqrt_square by apply a_pos. reflexivity.
  - assert (Hyop : dm_yden v k * dm_yop v (S k) j = a (S k) * a j / sqrt (Y k * Y (S k))).
    { unfold dm_yden, dm_yop. rewrite !y_sq. replace (a (S k) * a (S k) * (a j * a j)) with ((a (S k) * a j) * (a (S k) * a j)) by ring.
      rewrite sqrt_square by (apply Rmult_le_pos; apply a_pos). fold (Y k). fold (Y (S k)). field. apply Rgt_not_eq, s_pos. }
    unfold dm_u3. destruct j as [| j].
    + unfold dm_u2. cbn [Nat.leb dm_u1]. rewrite Hyop. reflexivity.
    + cbn [Nat.eqb]. destruct (Nat.eqb_spec k j) as [-> | E].
      * destruct (Nat.ltb_spec (S j) (S j)); [lia |]. rewrite Nat.eqb_refl. f_equal. unfold dm_yden. fold (Y j). fold (Y (S j)). field. apply Rgt_not_eq, s_pos.
      * unfold dm_u2. destruct (Nat.leb_spec (S k) (S j)); destruct (Nat.ltb_spec (S j) (S k)); try lia.
        -- destruct (Nat.eqb_spec j k); [lia |]. reflexivity.
        -- unfold dm_u1. rewrite Hyop. reflexivity.
Qed.

Lemma sum_lt : forall k f, (k <= n)%nat -> Rsum n (fun j => if (j <? k)%nat then f j else 0) = Rsum k f.
Proof.
  intros k f Hk. replace n with (k + (n - k))%nat by lia. rewrite Rsum_split.
  rewrite (Rsum_ext k _ f) by (intros i Hi; destruct (Nat.ltb_spec i k); [reflexivity | lia]).
  rewrite (Rsum_0 (n - k)); [ring |]. intros i Hi. destruct (Nat.ltb_spec (k + i) k); [lia | reflexivity].
Qed.

(** row inner products against any b that is [c * a] below k, for row k >= 1 *)
Lemma row_dot : forall k (b : nat -> R), (S k < n)%nat ->
  Rsum n (fun j => D (S k) j * b j) = (a (S k) * Rsum (S k) (fun j => a j * b j) - Y k * b (S k)) / sqrt (Y k * Y (S k)).
Proof.
  intros k b Hk.
  rewrite (Rsum_ext n _ (fun j => (if (j <? S k)%nat then a (S k) / sqrt (Y k * Y (S k)) * (a j * b j) else 0) + (if Nat.eqb j (S k) then - Y k / sqrt (Y k * Y (S k)) * b j else 0))).
  - rewrite Rsum_add, sum_lt by lia. rewrite Rsum_scal.
    rewrite (Rsum_single n (fun j => if Nat.eqb j (S k) then - Y k / sqrt (Y k * Y (S k)) * b j else 0) (S k));
      [| exact Hk | intros j Hj Hne; destruct (Nat.eqb_spec j (S k)); [lia | reflexivity]].
    rewrite Nat.eqb_refl. field. apply Rgt_not_eq, s_pos.
  - intros j Hj. unfold D. destruct (Nat.ltb_spec j (S k)); destruct (Nat.eqb_spec j (S k)); try lia; try (field; apply Rgt_not_eq, s_pos); ring.
Qed.
Lemma row_dot_a : forall k, (S k < n)%nat -> Rsum n (fun j => D (S k) j * a j) = 0.
Proof.
  intros k Hk. rewrite row_dot by auto. rewrite Y_sum. field. apply Rgt_not_eq, s_pos.
Qed.
Lemma sq_sqrt : forall x, 0 < x -> sqrt x * sqrt x = x. Proof. intros. apply sqrt_sqrt. lra. Qed.
Lemma row0_dot : forall b, Rsum n (fun j => D 0 j * b j) = Rsum n (fun j => b j * a j) / sqrt (Y (n - 1)%nat).
Proof.
  intro b. unfold Rdiv. rewrite Rmult_comm, <- Rsum_scal. apply Rsum_ext. intros j Hj. unfold D. field.
  apply Rgt_not_eq, sqrt_lt_R0, Y_pos.
Qed.
Lemma rows_lt : forall k l, (k < l)%nat -> (l < n)%nat -> Rsum n (fun j => D l j * D k j) = 0.
Proof.
  intros k l Hkl Hl. destruct l as [| l]; [lia |]. rewrite row_dot by auto. destruct k as [| k].
  - rewrite (Rsum_ext (S l) _ (fun j => / sqrt (Y (n - 1)%nat) * (a j * a j))).
    + rewrite Rsum_scal, Y_sum. unfold D. field. split; apply Rgt_not_eq; first [apply s_pos | apply sqrt_lt_R0, Y_pos].
    + intros j Hj. unfold D. field. apply Rgt_not_eq, sqrt_lt_R0, Y_pos.
  - assert (E1 : D (S k) (S l) = 0).
    { unfold D. destruct (Nat.ltb_spec (S l) (S k)); [lia |]. destruct (Nat.eqb_spec (S l) (S k)); [lia | reflexivity]. }
    rewrite E1.
    assert (E2 : Rsum (S l) (fun j => a j * D (S k) j) = Rsum n (fun j => D (S k) j * a j)).
    { replace n with (S l + (n - S l))%nat at 1 by lia. rewrite Rsum_split. 
      rewrite (Rsum_0 (n - S l)).
      - rewrite Rplus_0_r. apply Rsum_ext. intros; ring.
      - intros i Hi. unfold D. destruct (Nat.ltb_spec (S l + i) (S k)); [lia |]. destruct (Nat.eqb_spec (S l + i) (S k)); [lia | ring]. }
    rewrite E2, row_dot_a by lia. unfold Rdiv. ring.
Qed.
Lemma rows_norm : forall k, (k < n)%nat -> Rsum n (fun j => D k j * D k j) = 1.
Proof.
  intros [| k] Hk.
  - rewrite row0_dot. rewrite (Rsum_ext n _ (fun j => / sqrt (Y (n - 1)%nat) * (a j * a j))).
    + rewrite Rsum_scal. replace n with (S (n - 1)) at 2 by lia. rewrite Y_sum.
      pose proof (sq_sqrt _ (Y_pos (n - 1)%nat)) as E. rewrite <- E at 2. field. apply Rgt_not_eq, sqrt_lt_R0, Y_pos.
    + intros j Hj. unfold D. field. apply Rgt_not_eq, sqrt_lt_R0, Y_pos.
  - rewrite row_dot by auto. rewrite (Rsum_ext (S k) _ (fun j => a (S k) / sqrt (Y k * Y (S k)) * (a j * a j))).
    + rewrite Rsum_scal, Y_sum. unfold D at 1. destruct (Nat.ltb_spec (S k) (S k)); [lia |]. rewrite Nat.eqb_refl.
      pose proof (s_sq k) as E. pose proof (s_pos k) as P. set (s := sqrt (Y k * Y (S k))) in *.
      pose proof (Y_S k) as E2. pose proof (Y_pos k) as P2. pose proof (Y_pos (S k)) as P3.
      replace ((a (S k) * (a (S k) / s * Y k) - Y k * (- Y k / s)) / s) with (Y k * (Y k + a (S k) * a (S k)) / (s * s)) by (field; lra).
      rewrite E, <- E2. field. split; lra.
    + intros j Hj. unfold D. destruct (Nat.ltb_spec j (S k)); [| lia]. field. apply Rgt_not_eq, s_pos.
Qed.

(** columns: telescoping *)
Lemma telescope : forall i j m, (i <= j)%nat ->
  Rsum m (fun k => D (S j + k)%nat i * D (S j + k)%nat j) = a i * a j * (/ Y j - / Y (j + m)%nat).
Proof.
  intros i j m Hij. induction m as [| m IH].
  - cbn [Rsum]. rewrite Nat.add_0_r. ring.
  - cbn [Rsum]. rewrite IH. replace (j + S m)%nat with (S (j + m)) by lia.
    assert (E : D (S j + m)%nat i * D (S j + m)%nat j = a i * a j * (a (S (j + m))%nat * a (S (j + m))%nat / (Y (j + m)%nat * Y (S (j + m))%nat))).
    { change (S j + m)%nat with (S (j + m)). unfold D. destruct (Nat.ltb_spec i (S (j + m))); [| lia]. destruct (Nat.ltb_spec j (S (j + m))); [| lia].
      pose proof (s_sq (j + m)%nat) as E. pose proof (s_pos (j + m)%nat) as P. set (s := sqrt (Y (j + m)%nat * Y (S (j + m))%nat)) in *. clearbody s. rewrite <- E. field. lra. }
    rewrite E. pose proof (Y_S (j + m)%nat) as E2. pose proof (Y_pos (j + m)%nat) as P2. pose proof (Y_pos (S (j + m)%nat)) as P3. pose proof (Y_pos j) as P4.
    assert (E3 : a (S (j + m))%nat * a (S (j + m))%nat = Y (S (j + m))%nat - Y (j + m)%nat) by lra. rewrite E3. field. repeat split; lra.
Qed.
Lemma cols_dot : forall i j, (i <= j)%nat -> (j < n)%nat -> Rsum n (fun k => D k i * D k j) = if Nat.eqb i j then 1 else 0.
Proof.
  intros i j Hij Hj.
  assert (H0 : D 0 i * D 0 j = a i * a j * / Y (n - 1)%nat).
  { unfold D. pose proof (sq_sqrt _ (Y_pos (n - 1)%nat)) as E. pose proof (sqrt_lt_R0 _ (Y_pos (n - 1)%nat)) as P. rewrite <- E at 3. field. lra. }
  replace n with (S j + (n - S j))%nat at 1 by lia. rewrite Rsum_split, (telescope i j) by auto.
  replace (j + (n - S j))%nat with (n - 1)%nat by lia.
  destruct j as [| j].
  - assert (i = 0%nat) by lia. subst i. cbn [Nat.eqb Rsum]. rewrite H0, Y_0. pose proof a0_pos. pose proof (Y_pos (n - 1)%nat). field. split; [lra |]. lra.
  - cbn [Rsum].
    assert (Hmid : Rsum j (fun k => D k i * D k (S j)) + D j i * D j (S j) = D 0 i * D 0 (S j)).
    { change (Rsum (S j) (fun k => D k i * D k (S j)) = D 0 i * D 0 (S j)). apply (Rsum_single (S j) (fun k => D k i * D k (S j)) 0); [lia |].
      intros k Hk Hk0. destruct k as [| k]; [congruence |]. unfold D at 2. destruct (Nat.ltb_spec (S j) (S k)); [lia |]. destruct (Nat.eqb_spec (S j) (S k)); [lia | ring]. }
    rewrite Hmid, H0.
    assert (Hd : D (S j) (S j) = - Y j / sqrt (Y j * Y (S j))).
    { unfold D. destruct (Nat.ltb_spec (S j) (S j)); [lia |]. rewrite Nat.eqb_refl. reflexivity. }
    pose proof (s_sq j) as E. pose proof (s_pos j) as P. pose proof (Y_S j) as E2. pose proof (Y_pos j) as P2. pose proof (Y_pos (S j)) as P3. pose proof (Y_pos (n - 1)%nat) as P4.
    destruct (Nat.eqb_spec i (S j)) as [-> | Hne].
    + rewrite Hd. replace (- Y j / sqrt (Y j * Y (S j)) * (- Y j / sqrt (Y j * Y (S j)))) with (Y j * Y j / (sqrt (Y j * Y (S j)) * sqrt (Y j * Y (S j)))) by (field; lra).
      rewrite E. assert (E3 : a (S j) * a (S j) = Y (S j) - Y j) by lra. rewrite E3. field. repeat split; lra.
    + rewrite Hd. unfold D. destruct (Nat.ltb_spec i (S j)); [| lia].
      replace (a (S j) * a i / sqrt (Y j * Y (S j)) * (- Y j / sqrt (Y j * Y (S j)))) with (- (a (S j) * a i * Y j) / (sqrt (Y j * Y (S j)) * sqrt (Y j * Y (S j)))) by (field; lra).
      rewrite E. field. repeat split; lra.
Qed.

Lemma Csum_roll : forall f, Csum n (fun i => f ((i + 1) mod n)%nat) = Csum n f.
Proof.
  intro f. destruct n as [| m]; [lia |]. rewrite (Csum_shift m f). cbn [Csum].
  rewrite (Csum_ext m _ (fun i => f (S i))).
  - replace (m + 1)%nat with (S m) by lia. rewrite Nat.mod_same by lia. ring.
  - intros i Hi. f_equal. rewrite Nat.mod_small by lia. lia.
Qed.

Let U : mat := fun i j => dm_roll n (dm_u5 n v) j i.
Lemma mod_lt : forall i, ((i + 1) mod n < n)%nat. Proof. intro. apply Nat.mod_upper_bound. lia. Qed.
Lemma U_D : forall i j, (i < n)%nat -> (j < n)%nat -> U i j = (RtoC (D ((j + 1) mod n)%nat i) * cis (- Carg (v i)))%C.
Proof. intros i j Hi Hj. unfold U, dm_roll, dm_u5. rewrite u4_D by (auto using mod_lt). reflexivity. Qed.
Lemma mod_inj : forall i j, (i < n)%nat -> (j < n)%nat -> ((i + 1) mod n = (j + 1) mod n)%nat -> i = j.
Proof.
  intros i j Hi Hj E. destruct (Nat.eq_dec (i + 1) n) as [Ei | Ei]; destruct (Nat.eq_dec (j + 1) n) as [Ej | Ej]; try lia.
  - rewrite Ei, Nat.mod_same in E by lia. rewrite Nat.mod_small in E by lia. lia.
  - rewrite Ej, Nat.mod_same in E by lia. rewrite Nat.mod_small in E by lia. lia.
  - rewrite !Nat.mod_small in E by lia. lia.
Qed.
Lemma cis_conj_r' : forall t, (cis t * Cconj (cis t))%C = C1.
Proof. intro t. pose proof (sin2_cos2 t) as H; unfold Rsqr in H. apply C_eq; cbn; lra. Qed.

Lemma rows_all : forall k l, (k < n)%nat -> (l < n)%nat -> Rsum n (fun j => D k j * D l j) = if Nat.eqb k l then 1 else 0.
Proof.
  intros k l Hk Hl. destruct (Nat.eqb_spec k l) as [-> | E]; [apply rows_norm; auto |].
  destruct (lt_dec k l).
  - rewrite (Rsum_ext n _ (fun j => D l j * D k j)) by (intros; ring). apply rows_lt; auto.
  - apply rows_lt; auto. lia.
Qed.
Lemma cols_all : forall i j, (i < n)%nat -> (j < n)%nat -> Rsum n (fun k => D k i * D k j) = if Nat.eqb i j then 1 else 0.
Proof.
  intros i j Hi Hj. destruct (le_dec i j); [apply cols_dot; auto |].
  rewrite (Rsum_ext n _ (fun k => D k j * D k i)) by (intros; ring). rewrite Nat.eqb_sym. apply cols_dot; lia.
Qed.

Lemma dir_unitary : unitary n U.
Proof.
  intros i j Hi Hj. split.
  - rewrite (Csum_ext n _ (fun k => RtoC (D ((i + 1) mod n)%nat k * D ((j + 1) mod n)%nat k))).
    + rewrite <- Csum_RtoC, rows_all by apply mod_lt. unfold delta.
      destruct (Nat.eqb_spec ((i + 1) mod n) ((j + 1) mod n)) as [E | E]; destruct (Nat.eqb_spec i j) as [-> | E']; auto.
      * exfalso. apply E', mod_inj; auto.
      * congruence.
    + intros k Hk. rewrite !U_D by auto. rewrite Cconj_mul, Cconj_RtoC.
      replace (RtoC (D ((i + 1) mod n)%nat k * D ((j + 1) mod n)%nat k)) with (RtoC (D ((i + 1) mod n)%nat k) * RtoC (D ((j + 1) mod n)%nat k))%C by (apply C_eq; cbn; ring).
      transitivity (RtoC (D ((i + 1) mod n)%nat k) * RtoC (D ((j + 1) mod n)%nat k) * (cis (- Carg (v k)) * Cconj (cis (- Carg (v k)))))%C; [ring |].
      rewrite cis_conj_r'. ring.
  - rewrite (Csum_ext n _ (fun k => cis (- Carg (v i)) * Cconj (cis (- Carg (v j))) * (fun q => RtoC (D q i * D q j)) ((k + 1) mod n)%nat)%C).
    + rewrite Csum_scal. rewrite (Csum_roll (fun q => RtoC (D q i * D q j))). rewrite <- Csum_RtoC, cols_all by auto.
      unfold delta. destruct (Nat.eqb_spec i j) as [-> | E]; [rewrite cis_conj_r'; apply C_eq; cbn; ring | apply C_eq; cbn; ring].
    + intros k Hk. rewrite !U_D by auto. rewrite Cconj_mul, Cconj_RtoC.
      replace (RtoC (D ((k + 1) mod n)%nat i * D ((k + 1) mod n)%nat j)) with (RtoC (D ((k + 1) mod n)%nat i) * RtoC (D ((k + 1) mod n)%nat j))%C by (apply C_eq; cbn; ring). ring.
Qed.

(** v @ U is |v| on the last rail *)
Lemma dir_maps : forall j, (j < n)%nat -> Csum n (fun i => v i * U i j)%C = if Nat.eqb j (n - 1) then RtoC (sqrt (power n v)) else C0.
Proof.
  intros j Hj. rewrite (Csum_ext n _ (fun i => RtoC (D ((j + 1) mod n)%nat i * a i))).
  - rewrite <- Csum_RtoC. destruct (Nat.eqb_spec j (n - 1)) as [-> | E].
    + replace (n - 1 + 1)%nat with n by lia. rewrite Nat.mod_same by lia. rewrite row0_dot. f_equal.
      assert (EY : Rsum n (fun j => a j * a j) = Y (n - 1)%nat) by (replace n with (S (n - 1)) at 1 by lia; apply Y_sum).
      rewrite EY. assert (EP : power n v = Y (n - 1)%nat).
      { rewrite <- EY. unfold power. apply Rsum_ext. intros i Hi. unfold a, Cabs. symmetry. apply sqrt_sqrt. unfold Cn2. nra. }
      rewrite EP. pose proof (sq_sqrt _ (Y_pos (n - 1)%nat)) as Es. rewrite <- Es at 1. field. apply Rgt_not_eq, sqrt_lt_R0, Y_pos.
    + rewrite Nat.mod_small by lia. replace (j + 1)%nat with (S j) by lia. rewrite row_dot_a by lia. reflexivity.
  - intros i Hi. rewrite U_D by auto.
    transitivity (RtoC (D ((j + 1) mod n)%nat i) * (v i * cis (- Carg (v i))))%C; [ring |]. rewrite Carg_unphase. unfold a. apply C_eq; cbn; ring.
Qed.
End Dir.

Lemma dirichlet_spec : forall n v, (0 < n)%nat -> v 0%nat <> C0 ->
  exists U, dirichlet_matrix n v None = Some U /\ unitary n U /\
    forall j, (j < n)%nat -> Csum n (fun i => v i * U i j)%C = if Nat.eqb j (n - 1) then RtoC (sqrt (power n v)) else C0.
Proof.
  intros n v Hn Hv. destruct n as [| m]; [lia |]. eexists. split; [reflexivity |]. split.
  - apply dir_unitary; auto.
  - apply dir_maps; auto.
Qed.
Lemma transpose_unitary : forall n U, unitary n U -> unitary n (fun i j => U j i).
Proof.
  intros n U H i j Hi Hj. destruct (H j i Hj Hi) as [H1 H2]. split.
  - rewrite (Csum_ext n _ (fun k => U j k * Cconj (U i k))%C) by (intros; ring). rewrite H2. unfold delta. rewrite Nat.eqb_sym. reflexivity.
  - rewrite (Csum_ext n _ (fun k => Cconj (U k j) * U k i)%C) by (intros; ring). rewrite H1. unfold delta. rewrite Nat.eqb_sym. reflexivity.
Qed.
Lemma dirichlet_embed_spec : forall n v d, (0 < n)%nat -> v 0%nat <> C0 -> (n <= d)%nat ->
  exists U, dirichlet_matrix n v (Some d) = Some U /\ unitary d U /\
    forall j, (j < n)%nat -> Csum n (fun i => v i * U i j)%C = if Nat.eqb j (n - 1) then RtoC (sqrt (power n v)) else C0.
Proof.
  intros n v d Hn Hv Hd. unfold dirichlet_matrix. destruct n as [| m] eqn:En; [lia |]. rewrite <- En in *.
  assert (El : (n <=? d)%nat = true) by (apply Nat.leb_le; auto). rewrite El. eexists. split; [reflexivity |]. split.
  - apply (transpose_unitary d (block_diag n (dm_roll n (dm_u5 n v)) delta)).
    replace d with (n + (d - n))%nat by lia. apply block_diag_unitary; [| apply delta_unitary].
    apply (transpose_unitary n (fun i j => dm_roll n (dm_u5 n v) j i)). apply dir_unitary; auto.
  - intros j Hj. rewrite <- (dir_maps n v Hn Hv j Hj). apply Csum_ext. intros i Hi. rewrite bd_tl by auto. reflexivity.
Qed.
