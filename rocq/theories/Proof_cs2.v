(** Round trip cs / csinv stated on the model functions; the blocks of csinv. *)
From Coq Require Import Reals Lra Lia Psatz Arith Bool Ratan.
From Verif Require Import Cx Arr Spec_circuit Spec_cs Model_coupling Model_matrix Model_cs Proof_linalg Proof_matrix Proof_forward4 Proof_cs.
Local Open Scope R_scope.

Lemma half_split : forall n, n = (n / 2 + (n - n / 2))%nat /\ (n - n / 2)%nat = if Nat.odd n then S (n / 2) else (n / 2)%nat.
Proof.
  intro n. pose proof (Nat.div_mod n 2 ltac:(lia)). rewrite <- Nat.bit0_mod in *.
  rewrite Nat.bit0_odd in *. destruct (Nat.odd n); cbn [Nat.b2n] in *; lia.
Qed.
Lemma cs_roundtrip : forall svd qr n u, unitary n u ->
  let m := (n / 2)%nat in let m1 := (n - m)%nat in
  let l := fst (fst (svd m u)) in let r := snd (svd m u) in
  let A1 := fun i j => Csum m (fun k => Cconj (u k (m + i)%nat) * l k j)%C in
  let A2 := fun i j => Csum m (fun k => u (m + i)%nat k * Cconj (r j k))%C in
  svd_of m u (svd m u) -> qr_of m1 m A1 (qr m1 m A1) -> qr_of m1 m A2 (qr m1 m A2) ->
  let f := cs svd qr n u in
  (exists v, csinv m m1 m (cs_l0 f) (cs_l1 f) (cs_r0 f) (cs_r1 f) (cs_theta f) = Some v /\ meq n v u) <->
  injective_mat m1 m (fun i j => u (m + i)%nat j).
Proof.
  intros svd qr n u Hu m m1 l r A1 A2 HS Hq1 Hq2 f. destruct (half_split n) as [H1 H2]. fold m in H1, H2. fold m1 in H1, H2.
  unfold cs in f. fold m in f. fold m1 in f. unfold A1, A2, l, r in *. destruct (svd m u) as [[l0 d] r0]. cbn [fst snd] in *.
  destruct (qr m1 m (fun i j => Csum m (fun k => Cconj (u k (m + i)%nat) * l0 k j)%C)) as [Q1 R1].
  destruct (qr m1 m (fun i j => Csum m (fun k => u (m + i)%nat k * Cconj (r0 j k))%C)) as [Q2 R2].
  cbn [fst snd] in f. unfold f. cbn [cs_l0 cs_l1 cs_r0 cs_r1 cs_theta].
  exact (roundtrip_core n m m1 u l0 r0 Q1 R1 Q2 R2 d H1 H2 Hu HS Hq1 Hq2).
Qed.

Lemma csinv_blocks : forall m m1 l0 l1 r0 r1 theta, (m1 = m \/ m1 = S m) ->
  exists u, csinv m m1 m l0 l1 r0 r1 theta = Some u /\
   (forall i j, (i < m)%nat -> (j < m)%nat -> u i j = Csum m (fun k => l0 i k * RtoC (sin (theta k)) * r0 k j)%C) /\
   (forall i j, (i < m)%nat -> (j < m1)%nat -> u i (m + j)%nat = Csum m (fun k => l0 i k * RtoC (cos (theta k)) * r1 k j)%C) /\
   (forall i j, (i < m1)%nat -> (j < m)%nat -> u (m + i)%nat j = Csum m (fun k => l1 i k * RtoC (cos (theta k)) * r0 k j)%C) /\
   (forall i j, (i < m1)%nat -> (j < m1)%nat -> u (m + i)%nat (m + j)%nat =
      (Csum m (fun k => l1 i k * RtoC (- sin (theta k)) * r1 k j) + (if Nat.eqb m1 m then C0 else l1 i m * r1 m j))%C).
Proof.
  intros m m1 l0 l1 r0 r1 theta Hm. unfold csinv.
  set (dd := if Nat.eqb m m1 then cs_d m theta else block_diag (2 * m) (cs_d m theta) (fun _ _ => C1)).
  assert (En : Nat.eqb (if Nat.eqb m m1 then (2 * m)%nat else (2 * m + 1)%nat) (m + m1) = true).
  { apply Nat.eqb_eq. destruct (Nat.eqb_spec m m1); lia. }
  rewrite En. eexists. split; [reflexivity |]. change matmul with prod.
  assert (dlt : forall k t, (k < m)%nat -> (t < m1)%nat -> dd k t = if (t <? m)%nat then (delta k t * RtoC (sin (theta k)))%C else dd k t).
  { intros k t Hk Ht. nb; [| reflexivity]. assert (E : cs_d m theta k t = (delta k t * RtoC (sin (theta k)))%C).
    { unfold cs_d, delta. nb; try lia. destruct (Nat.eqb k t); apply C_eq; cbn; ring. }
    unfold dd. destruct (Nat.eqb m m1); [| rewrite bd_tl by lia]; exact E. }
  assert (tl : forall k t, (k < m)%nat -> (t < m)%nat -> dd k t = (delta k t * RtoC (sin (theta t)))%C).
  { intros k t Hk Ht. assert (E : cs_d m theta k t = (delta k t * RtoC (sin (theta t)))%C).
    { unfold cs_d, delta. nb; try lia. destruct (Nat.eqb_spec k t); subst; apply C_eq; cbn; ring. }
    unfold dd. destruct (Nat.eqb m m1); [| rewrite bd_tl by lia]; exact E. }
  assert (tr : forall k t, (k < m)%nat -> (t < m1)%nat -> dd k (m + t)%nat = (delta k t * RtoC (cos (theta k)))%C).
  { intros k t Hk Ht. assert (E : (t < m)%nat -> cs_d m theta k (m + t)%nat = (delta k t * RtoC (cos (theta k)))%C).
    { intro. unfold cs_d, delta. nb; try lia. replace (m + t - m)%nat with t by lia. destruct (Nat.eqb k t); apply C_eq; cbn; ring. }
    unfold dd. destruct (Nat.eqb_spec m m1); [apply E; lia |]. destruct (lt_dec t m); [rewrite bd_tl by lia; auto |].
    replace (m + t)%nat with (2 * m + 0)%nat by lia. rewrite bd_tr, delta_far by lia. apply C_eq; cbn; ring. }
  assert (bl : forall k t, (k < m1)%nat -> (t < m)%nat -> dd (m + k)%nat t = (delta k t * RtoC (cos (theta t)))%C).
  { intros k t Hk Ht. assert (E : (k < m)%nat -> cs_d m theta (m + k)%nat t = (delta k t * RtoC (cos (theta t)))%C).
    { intro. unfold cs_d, delta. nb; try lia. replace (m + k - m)%nat with k by lia. destruct (Nat.eqb k t); apply C_eq; cbn; ring. }
    unfold dd. destruct (Nat.eqb_spec m m1); [apply E; lia |]. destruct (lt_dec k m); [rewrite bd_tl by lia; auto |].
    replace (m + k)%nat with (2 * m + 0)%nat by lia. rewrite bd_bl, delta_far by lia. apply C_eq; cbn; ring. }
  assert (br : forall k t, (k < m1)%nat -> (t < m1)%nat -> dd (m + k)%nat (m + t)%nat = (delta k t * (if Nat.eqb t m then C1 else RtoC (- sin (theta t))))%C).
  { intros k t Hk Ht. assert (E : (k < m)%nat -> (t < m)%nat -> cs_d m theta (m + k)%nat (m + t)%nat = (delta k t * RtoC (- sin (theta t)))%C).
    { intros. unfold cs_d, delta. nb; try lia. replace (m + k - m)%nat with k by lia. replace (m + t - m)%nat with t by lia. destruct (Nat.eqb_spec k t); subst; apply C_eq; cbn; ring. }
    unfold dd. destruct (Nat.eqb_spec m m1); [destruct (Nat.eqb_spec t m); [lia | apply E; lia] |].
    destruct (Nat.eqb_spec t m) as [-> | Et].
    - destruct (Nat.eq_dec k m) as [-> | Ek].
      + replace (m + m)%nat with (2 * m + 0)%nat by lia. rewrite bd_br. unfold delta. rewrite Nat.eqb_refl. ring.
      + replace (m + m)%nat with (2 * m + 0)%nat by lia. rewrite bd_tr, delta_far by lia. ring.
    - destruct (Nat.eq_dec k m) as [-> | Ek].
      + replace (m + m)%nat with (2 * m + 0)%nat by lia. rewrite bd_bl, delta_far by lia. ring.
      + rewrite bd_tl by lia. apply E; lia. }
  repeat split.
  - intros i j Hi Hj. rewrite prod_bd_l by auto. apply Csum_ext. intros k Hk. f_equal. rewrite bd_prod_t by auto.
    rewrite (Csum_ext m _ (fun t => delta k t * (l0 i t * RtoC (sin (theta k))))%C) by (intros t Ht; rewrite tl, (delta_sym k) by auto; ring).
    apply (Csum_delta_l m k (fun t => l0 i t * RtoC (sin (theta k)))%C). exact Hk.
  - intros i j Hi Hj. rewrite prod_bd_r.
    rewrite (Csum_ext m1 _ (fun t => Csum m (fun k => l0 i k * RtoC (cos (theta k)) * (delta k t * r1 t j)))%C).
    + rewrite Csum_swap. apply Csum_ext. intros k Hk. rewrite Csum_scal. f_equal. apply (Csum_delta_l m1 k (fun t => r1 t j)). lia.
    + intros t Ht. rewrite bd_prod_t by auto. rewrite <- Csum_scal_r. apply Csum_ext. intros k Hk. rewrite tr by auto. ring.
  - intros i j Hi Hj. rewrite prod_bd_l by auto. apply Csum_ext. intros k Hk. f_equal. rewrite bd_prod_b by auto.
    rewrite (Csum_ext m1 _ (fun t => delta k t * (l1 i t * RtoC (cos (theta k))))%C) by (intros t Ht; rewrite bl, (delta_sym k) by auto; ring).
    apply (Csum_delta_l m1 k (fun t => l1 i t * RtoC (cos (theta k)))%C). lia.
  - intros i j Hi Hj. rewrite prod_bd_r.
    rewrite (Csum_ext m1 _ (fun t => l1 i t * (if Nat.eqb t m then C1 else RtoC (- sin (theta t))) * r1 t j)%C).
    + destruct (Nat.eqb_spec m1 m) as [E | E].
      * subst m1. replace (Csum m (fun k => l1 i k * RtoC (- sin (theta k)) * r1 k j) + C0)%C with (Csum m (fun k => l1 i k * RtoC (- sin (theta k)) * r1 k j))%C by ring.
        apply Csum_ext. intros k Hk. destruct (Nat.eqb_spec k m); [lia | reflexivity].
      * assert (m1 = S m) by lia. subst m1. cbn [Csum]. rewrite Nat.eqb_refl. f_equal; [| ring].
        apply Csum_ext. intros k Hk. destruct (Nat.eqb_spec k m); [lia | reflexivity].
    + intros t Ht. f_equal. rewrite bd_prod_b.
      rewrite (Csum_ext m1 _ (fun k => delta t k * (l1 i k * (if Nat.eqb t m then C1 else RtoC (- sin (theta t)))))%C) by (intros k Hk; rewrite br, (delta_sym t) by auto; ring).
      apply (Csum_delta_l m1 t (fun k => l1 i k * (if Nat.eqb t m then C1 else RtoC (- sin (theta t))))%C). exact Ht.
Qed.

Lemma cs_factors_unitary : forall svd qr n u, unitary n u ->
  let m := (n / 2)%nat in let m1 := (n - m)%nat in
  let l := fst (fst (svd m u)) in let r := snd (svd m u) in
  let A1 := fun i j => Csum m (fun k => Cconj (u k (m + i)%nat) * l k j)%C in
  let A2 := fun i j => Csum m (fun k => u (m + i)%nat k * Cconj (r j k))%C in
  svd_of m u (svd m u) -> qr_of m1 m A1 (qr m1 m A1) -> qr_of m1 m A2 (qr m1 m A2) ->
  let f := cs svd qr n u in
  unitary m (cs_l0 f) /\ unitary m (cs_r0 f) /\ (forall k, (k < m)%nat -> 0 <= cs_theta f k <= PI / 2) /\
  ((unitary m1 (cs_l1 f) /\ unitary m1 (cs_r1 f)) <-> injective_mat m1 m (fun i j => u (m + i)%nat j)).
Proof.
  intros svd qr n u Hu m m1 l r A1 A2 HS Hq1 Hq2 f. destruct (half_split n) as [H1 H2]. fold m in H1, H2. fold m1 in H1, H2.
  unfold cs in f. fold m in f. fold m1 in f. unfold A1, A2, l, r in *. destruct (svd m u) as [[l0 d] r0]. cbn [fst snd] in *.
  destruct (qr m1 m (fun i j => Csum m (fun k => Cconj (u k (m + i)%nat) * l0 k j)%C)) as [Q1 R1].
  destruct (qr m1 m (fun i j => Csum m (fun k => u (m + i)%nat k * Cconj (r0 j k))%C)) as [Q2 R2].
  cbn [fst snd] in f. unfold f. cbn [cs_l0 cs_l1 cs_r0 cs_r1 cs_theta].
  split; [apply HS |]. split; [apply HS |]. split.
  - intros k Hk. exact (proj1 (theta_range n m m1 u l0 r0 Q1 R1 Q2 R2 d H1 H2 Hu HS Hq1 Hq2 k Hk)).
  - exact (factors_core n m m1 u l0 r0 Q1 R1 Q2 R2 d H1 H2 Hu HS Hq1 Hq2).
Qed.
(** A block-diagonal unitary is never reproduced. *)
Lemma block_diag_lost : forall svd qr n u, (2 <= n)%nat -> unitary n u ->
  let m := (n / 2)%nat in let m1 := (n - m)%nat in
  let l := fst (fst (svd m u)) in let r := snd (svd m u) in
  let A1 := fun i j => Csum m (fun k => Cconj (u k (m + i)%nat) * l k j)%C in
  let A2 := fun i j => Csum m (fun k => u (m + i)%nat k * Cconj (r j k))%C in
  svd_of m u (svd m u) -> qr_of m1 m A1 (qr m1 m A1) -> qr_of m1 m A2 (qr m1 m A2) ->
  (forall i j, (i < m1)%nat -> (j < m)%nat -> u (m + i)%nat j = C0) ->
  let f := cs svd qr n u in
  ~ exists v, csinv m m1 m (cs_l0 f) (cs_l1 f) (cs_r0 f) (cs_r1 f) (cs_theta f) = Some v /\ meq n v u.
Proof.
  intros svd qr n u Hn Hu m m1 l r A1 A2 HS Hq1 Hq2 Hz f H.
  apply (cs_roundtrip svd qr n u Hu HS Hq1 Hq2) in H. specialize (H (fun _ => C1)).
  assert (Hm : (0 < m)%nat) by (unfold m; apply Nat.div_str_pos; lia).
  assert (E : C1 = C0).
  { apply (H) with (k := 0%nat); [| exact Hm]. intros i Hi. apply Csum_0. intros k Hk. rewrite Hz by auto. apply C_eq; cbn; ring. }
  apply (f_equal re) in E. cbn in E. lra.
Qed.

(** Concrete routines for the middle factors d(theta), and for the identity. *)
Definition ex_svd (theta : nat -> R) (m : nat) (A : mat) : mat * (nat -> R) * mat := (delta, fun k => sin (theta k), delta).
Definition ex_qr (p k : nat) (A : mat) : mat * mat := (delta, A).
Lemma ex_contracts : forall m theta, (forall k, 0 <= theta k <= PI / 2) ->
  let n := (m + m)%nat in let u := cs_d m theta in
  let A1 := fun i j => Csum m (fun k => Cconj (u k (m + i)%nat) * delta k j)%C in
  let A2 := fun i j => Csum m (fun k => u (m + i)%nat k * Cconj (delta j k))%C in
  unitary n u /\ (n / 2)%nat = m /\ (n - m)%nat = m /\ svd_of m u (ex_svd theta m u) /\ qr_of m m A1 (ex_qr m m A1) /\ qr_of m m A2 (ex_qr m m A2) /\
  ((forall k, (k < m)%nat -> theta k < PI / 2) -> injective_mat m m (fun i j => u (m + i)%nat j)).
Proof.
  intros m theta Ht n u A1 A2.
  assert (BL : forall a b, (a < m)%nat -> (b < m)%nat -> u (m + a)%nat b = (delta a b * RtoC (cos (theta b)))%C).
  { intros a b Ha Hb. unfold u, cs_d, delta. nb; try lia. replace (m + a - m)%nat with a by lia. destruct (Nat.eqb_spec a b) as [-> | E]; apply C_eq; cbn; ring. }
  assert (TR : forall a b, (a < m)%nat -> (b < m)%nat -> u a (m + b)%nat = (delta a b * RtoC (cos (theta a)))%C).
  { intros a b Ha Hb. unfold u, cs_d, delta. nb; try lia. replace (m + b - m)%nat with b by lia. destruct (Nat.eqb_spec a b) as [-> | E]; apply C_eq; cbn; ring. }
  assert (E1 : forall i j, (i < m)%nat -> (j < m)%nat -> A1 i j = (delta i j * RtoC (cos (theta j)))%C).
  { intros i j Hi Hj. unfold A1. rewrite (Csum_ext m _ (fun k => delta j k * Cconj (u k (m + i)%nat))%C) by (intros; rewrite (delta_sym j); ring).
    rewrite (Csum_delta_l m j (fun k => Cconj (u k (m + i)%nat))) by auto. rewrite TR by auto. rewrite (delta_sym j). unfold delta. destruct (Nat.eqb i j); apply C_eq; cbn; ring. }
  assert (E2 : forall i j, (i < m)%nat -> (j < m)%nat -> A2 i j = (delta i j * RtoC (cos (theta j)))%C).
  { intros i j Hi Hj. unfold A2. rewrite (Csum_ext m _ (fun k => delta j k * u (m + i)%nat k)%C).
    - rewrite (Csum_delta_l m j (fun k => u (m + i)%nat k)) by auto. apply BL; auto.
    - intros k Hk. unfold delta. destruct (Nat.eqb j k); apply C_eq; cbn; ring. }
  assert (Q : forall A, (forall i j, (i < m)%nat -> (j < m)%nat -> A i j = (delta i j * RtoC (cos (theta j)))%C) -> qr_of m m A (ex_qr m m A)).
  { intros A E. cbn. split; [apply delta_unitary |]. split; [intros i j Hi Hj L; rewrite E, delta_far by lia; apply C_eq; cbn; ring |].
    split; [intros i Hi; rewrite E by auto; unfold delta; rewrite Nat.eqb_refl; cbn; ring |].
    intros i j Hi Hj. symmetry. apply (Csum_delta_l m i (fun t => A t j)). exact Hi. }
  split; [apply cs_d_unitary |]. split; [unfold n; replace (m + m)%nat with (m * 2)%nat by lia; apply Nat.div_mul; lia |]. split; [unfold n; lia |].
  split; [| split; [apply Q, E1 | split; [apply Q, E2 |]]].
  - cbn. split; [apply delta_unitary |]. split; [apply delta_unitary |]. split; [intros k _; apply sin_ge_0; specialize (Ht k); lra |].
    intros i j Hi Hj. rewrite (Csum_ext m _ (fun k => delta i k * (RtoC (sin (theta k)) * delta k j))%C) by (intros; ring).
    rewrite (Csum_delta_l m i (fun k => RtoC (sin (theta k)) * delta k j)%C) by auto.
    unfold u, cs_d, delta. nb; try lia. destruct (Nat.eqb i j); apply C_eq; cbn; ring.
  - intros Hlt x Hx k Hk. pose proof (Hx k Hk) as E. rewrite (Csum_single m _ k Hk) in E.
    + rewrite BL in E by auto. unfold delta in E. rewrite Nat.eqb_refl in E. destruct (Cmul_integral _ _ E) as [Z | Z]; [| exact Z].
      exfalso. apply (f_equal re) in Z. cbn in Z. assert (0 < cos (theta k)) by (apply cos_gt_0; specialize (Ht k); specialize (Hlt k Hk); lra). lra.
    + intros j Hj Hjk. rewrite BL, delta_far by auto. apply C_eq; cbn; ring.
Qed.
