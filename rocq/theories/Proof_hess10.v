(** C91 and C92 with the division guard: the Hessian of a programmed vector unit for every eps >= 0. *)
From Coq Require Import Reals Lra Lia List ZArith Bool Arith Permutation FunctionalExtensionality.
From Verif Require Import Cx Arr Spec_circuit Model_coupling Model_forward Model_vector Model_hess Spec_mesh Spec_tree Spec_hess Proof_node Proof_mesh Proof_forward Proof_forward2 Proof_forward3 Proof_forward4 Proof_tree Proof_vector Proof_insitu
  Proof_hess1 Proof_hess2 Proof_hess3 Proof_hess4 Proof_hess5 Proof_hess6 Proof_hess7 Proof_hess8 Proof_hess9.
Import ListNotations.
Local Open Scope R_scope.

Lemma every_in : forall Q t k, every Q t -> In k (ids t) -> exists nd A B, node_id nd = k /\ Q nd A B.
Proof.
  intros Q t k. induction t as [r | nd A IHA B IHB]; intros H K; [destruct K |]. destruct H as (H & HA & HB). rewrite ids_nd in K.
  destruct K as [<- | K]; [exists nd, A, B; auto |]. apply in_app_or in K. destruct K as [K | K]; auto.
Qed.
(** A value per node, looked up by node number. *)
Fixpoint look (f : node -> bt -> bt -> R) (t : bt) (k : nat) : R := match t with
  | Lf _ => 0
  | Nd nd A B => if Nat.eqb k (node_id nd) then f nd A B else if mem k (ids A) then look f A k else look f B k end.
Lemma every_look_at : forall f (g : nat -> R) t, (forall k, In k (ids t) -> g k = look f t k) -> NoDup (ids t) -> every (fun nd A B => g (node_id nd) = f nd A B) t.
Proof.
  intros f g t. induction t as [r | nd A IHA B IHB]; intros H Hnd; [exact I |]. rewrite ids_nd in Hnd. apply NoDup_cons_iff in Hnd. destruct Hnd as [Hk Hd].
  split; [| split].
  - rewrite H by (rewrite ids_nd; left; reflexivity). cbn [look]. rewrite Nat.eqb_refl. reflexivity.
  - apply IHA; [| apply (NoDup_app_fst _ _ _ Hd)]. intros k Hin. rewrite H by (rewrite ids_nd; right; apply in_or_app; auto). cbn [look].
    destruct (Nat.eqb_spec k (node_id nd)) as [-> | E]; [exfalso; apply Hk, in_or_app; auto |]. rewrite mem_in by exact Hin. reflexivity.
  - apply IHB; [| apply (NoDup_app_snd _ _ _ Hd)]. intros k Hin. rewrite H by (rewrite ids_nd; right; apply in_or_app; auto). cbn [look].
    destruct (Nat.eqb_spec k (node_id nd)) as [-> | E]; [exfalso; apply Hk, in_or_app; auto |].
    rewrite mem_out by (intro K; apply (nodup_app_disj _ _ _ _ Hd K Hin)). reflexivity.
Qed.
Lemma every_look : forall f t, NoDup (ids t) -> every (fun nd A B => look f t (node_id nd) = f nd A B) t.
Proof. intros f t H. apply every_look_at; auto. Qed.

(** The input that a tree focuses exactly onto its last rail with amplitude c. *)
Fixpoint push (z : zmap) (t : bt) (c : C) : vec := match t with
  | Lf r => fun i => if Nat.eqb i r then c else C0
  | Nd nd A B => fun i => if mem i (leaves A) then push z A (Cconj (zq12 z (node_id nd)) * c)%C i else push z B (Cconj (zq22 z (node_id nd)) * c)%C i end.
Lemma za_ext : forall z x y t, (forall r, In r (leaves t) -> x r = y r) -> za z x t = za z y t.
Proof.
  intros z x y t. induction t as [r | nd A IHA B IHB]; intro H; cbn [za leaves] in *; [apply H; left; reflexivity |].
  rewrite IHA, IHB; [reflexivity | |]; intros r Hr; apply H, in_or_app; auto.
Qed.
Lemma every_ext : forall (Q : vec -> node -> bt -> bt -> Prop) x y t,
  (forall nd A B, (forall r, In r (leaves (Nd nd A B)) -> x r = y r) -> Q y nd A B -> Q x nd A B) ->
  (forall r, In r (leaves t) -> x r = y r) -> every (Q y) t -> every (Q x) t.
Proof.
  intros Q x y t HQ. induction t as [r | nd A IHA B IHB]; intros H E; [exact I |]. destruct E as (E & EA & EB).
  split; [apply HQ; assumption |]. split; [apply IHA | apply IHB]; try assumption; intros r Hr; apply H; cbn [leaves]; apply in_or_app; auto.
Qed.
Definition nulled (z : zmap) (x : vec) (nd : node) (A B : bt) : Prop := (zq11 z (node_id nd) * za z x A + zq21 z (node_id nd) * za z x B)%C = C0.
Section tree.
Variable z : zmap.
Hypothesis Hz : forall b k, (z b k * Cconj (z b k))%C = C1.
Hypothesis Hu : forall k, quad_unit (mkQuad (zq11 z k) (zq12 z k) (zq21 z k) (zq22 z k)).
Lemma quarter : (half * half + half * half + half * half + half * half)%C = C1.
Proof. unfold half. apply C_eq; cbn; field. Qed.
Lemma rows : forall k, (zq12 z k * Cconj (zq12 z k) + zq22 z k * Cconj (zq22 z k))%C = C1 /\ (zq11 z k * Cconj (zq12 z k) + zq21 z k * Cconj (zq22 z k))%C = C0.
Proof.
  intro k. unfold zq11, zq12, zq21, zq22. rewrite !Cconj_mul, !Cconj_add, !Cconj_sub, half_conj, Cconj_C1, Cconj_Ci. split.
  - transitivity (half * half * (- (Ci * Ci)) * (C1 + z false k + Cconj (z false k) + z false k * Cconj (z false k)) * (z true k * Cconj (z true k))
      + half * half * (C1 - z false k - Cconj (z false k) + z false k * Cconj (z false k)))%C; [ring |]. rewrite !Hz.
    replace (Ci * Ci)%C with (- C1)%C by (apply C_eq; cbn; ring). transitivity (half * half + half * half + half * half + half * half)%C; [ring | apply quarter].
  - transitivity (- (half * half * Ci * (z false k * Cconj (z false k) + z false k - C1 - Cconj (z false k))) * (z true k * Cconj (z true k))
      + half * half * Ci * (C1 + z false k - Cconj (z false k) - z false k * Cconj (z false k)))%C; [ring |]. rewrite !Hz. ring.
Qed.
Lemma push_spec : forall t c, NoDup (leaves t) -> za z (push z t c) t = c /\ every (nulled z (push z t c)) t.
Proof.
  induction t as [r | nd A IHA B IHB]; intros c Hnd; [cbn; rewrite Nat.eqb_refl; auto |]. cbn [leaves] in Hnd.
  set (cA := (Cconj (zq12 z (node_id nd)) * c)%C). set (cB := (Cconj (zq22 z (node_id nd)) * c)%C).
  destruct (IHA cA (NoDup_app_fst _ _ _ Hnd)) as [A1 A2]. destruct (IHB cB (NoDup_app_snd _ _ _ Hnd)) as [B1 B2].
  assert (EA : forall r, In r (leaves A) -> push z (Nd nd A B) c r = push z A cA r) by (intros r Hr; cbn [push]; rewrite mem_in by exact Hr; reflexivity).
  assert (EB : forall r, In r (leaves B) -> push z (Nd nd A B) c r = push z B cB r).
  { intros r Hr. cbn [push]. rewrite mem_out by (intro K; apply (nodup_app_disj _ _ _ _ Hnd K Hr)). reflexivity. }
  destruct (rows (node_id nd)) as [R1 R2].
  assert (F : za z (push z (Nd nd A B) c) A = cA) by (rewrite (za_ext z _ _ A EA); exact A1).
  assert (G : za z (push z (Nd nd A B) c) B = cB) by (rewrite (za_ext z _ _ B EB); exact B1).
  assert (X : forall x y nd A B, (forall r, In r (leaves (Nd nd A B)) -> x r = y r) -> nulled z y nd A B -> nulled z x nd A B).
  { intros x y nd' A' B' H K. unfold nulled in *. rewrite (za_ext z x y A'), (za_ext z x y B'); [exact K | |]; intros r Hr; apply H; cbn [leaves]; apply in_or_app; auto. }
  split; [| split; [| split]].
  - cbn [za]. rewrite F, G. unfold cA, cB. transitivity ((zq12 z (node_id nd) * Cconj (zq12 z (node_id nd)) + zq22 z (node_id nd) * Cconj (zq22 z (node_id nd))) * c)%C; [ring |].
    rewrite R1. ring.
  - unfold nulled. rewrite F, G. unfold cA, cB. transitivity ((zq11 z (node_id nd) * Cconj (zq12 z (node_id nd)) + zq21 z (node_id nd) * Cconj (zq22 z (node_id nd))) * c)%C; [ring |].
    rewrite R2. ring.
  - apply (every_ext (nulled z) _ _ A (X _ _) EA A2).
  - apply (every_ext (nulled z) _ _ B (X _ _) EB B2).
Qed.
(** Inner product over the leaves. *)
Definition ldot (x y : vec) (t : bt) : C := fold_right Cadd C0 (map (fun r => (Cconj (x r) * y r)%C) (leaves t)).
Lemma ldot_nd : forall x y nd A B, ldot x y (Nd nd A B) = (ldot x y A + ldot x y B)%C.
Proof.
  intros. unfold ldot. cbn [leaves]. rewrite map_app, fold_right_app. generalize (fold_right Cadd C0 (map (fun r => (Cconj (x r) * y r)%C) (leaves B))) as b.
  intro b. induction (map (fun r => (Cconj (x r) * y r)%C) (leaves A)) as [| a l IH]; cbn; [ring | rewrite IH; ring].
Qed.
Lemma below_nd : forall x nd A B, below x (Nd nd A B) = below x A + below x B.
Proof. intros. unfold below. cbn [leaves]. apply below_app. Qed.
Lemma ldot_ext : forall x x' y t, (forall r, In r (leaves t) -> x r = x' r) -> ldot x y t = ldot x' y t.
Proof. intros x x' y t H. unfold ldot. f_equal. apply map_ext_in. intros r Hr. rewrite H by exact Hr. reflexivity. Qed.
Lemma push_dot : forall t c y, NoDup (leaves t) -> ldot (push z t c) y t = (Cconj c * za z y t)%C.
Proof.
  induction t as [r | nd A IHA B IHB]; intros c y Hnd; [unfold ldot; cbn; rewrite Nat.eqb_refl; ring |]. cbn [leaves] in Hnd. rewrite ldot_nd.
  rewrite (ldot_ext _ (push z A (Cconj (zq12 z (node_id nd)) * c)%C) y A), (ldot_ext _ (push z B (Cconj (zq22 z (node_id nd)) * c)%C) y B).
  - rewrite IHA, IHB by (apply (NoDup_app_fst _ _ _ Hnd) || apply (NoDup_app_snd _ _ _ Hnd)). rewrite !Cconj_mul, !Cconj_conj. cbn [za]. ring.
  - intros r Hr. cbn [push]. rewrite mem_out by (intro K; apply (nodup_app_disj _ _ _ _ Hnd K Hr)). reflexivity.
  - intros r Hr. cbn [push]. rewrite mem_in by exact Hr. reflexivity.
Qed.
Lemma below_push : forall t c, NoDup (leaves t) -> below (push z t c) t = Cn2 c.
Proof.
  intros t c H. pose proof (push_dot t c (push z t c) H) as E. destruct (push_spec t c H) as [E1 _]. rewrite E1, cmul_conj' in E.
  apply (f_equal re) in E. cbn in E. rewrite <- E. unfold below, ldot. generalize (leaves t). induction l as [| r l IH]; [reflexivity |].
  cbn [map fold_right]. rewrite IH. cbn. unfold Cn2. ring.
Qed.
Lemma below_sub : forall x y t, below (fun i => (x i - y i)%C) t = below x t + below y t - 2 * re (ldot y x t).
Proof.
  intros x y t. unfold below, ldot. generalize (leaves t). induction l as [| r l IH]; [cbn; ring |]. cbn [map fold_right]. rewrite IH. cbn. unfold Cn2. cbn. ring.
Qed.
End tree.
Lemma za_sub : forall z x y t, za z (fun i => (x i - y i)%C) t = (za z x t - za z y t)%C.
Proof. intros z x y. induction t as [r | nd A IHA B IHB]; cbn [za]; [reflexivity | rewrite IHA, IHB; ring]. Qed.
Lemma dif_sub : forall z x y a t, dif z (fun i => (x i - y i)%C) a t = (dif z x a t - dif z y a t)%C.
Proof. intros z x y a. induction t as [r | nd A IHA B IHB]; cbn [dif]; [ring | rewrite IHA, IHB, !za_sub; ring]. Qed.
Lemma dif2_sub : forall z x y a b t, dif2 z (fun i => (x i - y i)%C) a b t = (dif2 z x a b t - dif2 z y a b t)%C.
Proof. intros z x y a b. induction t as [r | nd A IHA B IHB]; cbn [dif2]; [ring | rewrite IHA, IHB, !za_sub, !dif_sub; ring]. Qed.
Lemma four_le : forall a b c d M, Cn2 a <= M -> Cn2 b <= M -> Cn2 c <= M -> Cn2 d <= M -> Cn2 (a - b - c + d)%C <= 16 * M.
Proof.
  intros [a a'] [b b'] [c c'] [d d'] M. unfold Cn2. cbn. intros Ha Hb Hc Hd.
  assert (K : forall w x y z, (w - x - y + z) * (w - x - y + z) <= 4 * (w * w + x * x + y * y + z * z)).
  { intros w x y z. pose proof (Rle_0_sqr (w + x)). pose proof (Rle_0_sqr (w + y)). pose proof (Rle_0_sqr (w - z)).
    pose proof (Rle_0_sqr (x - y)). pose proof (Rle_0_sqr (x + z)). pose proof (Rle_0_sqr (y + z)). unfold Rsqr in *. lra. }
  pose proof (K a b c d). pose proof (K a' b' c' d').
  replace (a + - b + - c + d) with (a - b - c + d) by ring. replace (a' + - b' + - c' + d') with (a' - b' - c' + d') by ring. lra.
Qed.
Lemma dif2_le : forall n p x a b t, NoDup (ids t) -> Cn2 (dif2 (zp p) x (ph_of n a) (ph_of n b) t) <= below x t.
Proof.
  intros n p x a b t Hnd.
  assert (F : forall s u, Cn2 (za (zp p) x t + dif (zp p) x (ph_of n a) t * (cis s - C1) + dif (zp p) x (ph_of n b) t * (cis u - C1)
     + dif2 (zp p) x (ph_of n a) (ph_of n b) t * (cis s - C1) * (cis u - C1))%C <= below x t).
  { intros s u. rewrite <- za_bump by exact Hnd. rewrite <- zp_bump2. apply za_le. }
  assert (P : (cis PI - C1)%C = RtoC (-2)) by (unfold cis; rewrite cos_PI, sin_PI; apply C_eq; cbn; ring).
  assert (O : (cis 0 - C1)%C = C0) by (rewrite cis_0; ring).
  pose proof (F PI PI) as F1. pose proof (F PI 0) as F2. pose proof (F 0 PI) as F3. pose proof (F 0 0) as F4. rewrite P in F1. rewrite P, O in F2, F3. rewrite O in F4.
  pose proof (four_le _ _ _ _ _ F1 F2 F3 F4) as G.
  match type of G with Cn2 ?e <= _ => replace e with (RtoC 4 * dif2 (zp p) x (ph_of n a) (ph_of n b) t)%C in G end.
  - rewrite Cn2_mul, Cn2_RtoC in G. lra.
  - apply C_eq; cbn; ring.
Qed.
Lemma every_le : forall p x t M, below x t <= M -> every (fun nd A B => Cn2 (za (zp p) x (Nd nd A B)) <= M /\ Cn2 (za (zp p) x A) <= M) t.
Proof.
  intros p x t M. induction t as [r | nd A IHA B IHB]; intro H; [exact I |].
  pose proof (za_le p x (Nd nd A B)) as L1. pose proof (za_le p x A) as L2. pose proof (za_le p x B) as L3. pose proof (Cn2_nonneg (za (zp p) x A)). pose proof (Cn2_nonneg (za (zp p) x B)).
  rewrite below_nd in *. split; [split; lra |]. split; [apply IHA | apply IHB]; lra.
Qed.
Lemma cn2_diff : forall a b, Cn2 a <= 1 -> Cn2 b <= 1 -> (Cn2 a - Cn2 b) ^ 2 <= 4 * Cn2 (a - b)%C.
Proof.
  intros [a a'] [b b']. unfold Cn2. cbn [re im Csub Cadd Copp]. intros H1 H2.
  replace (a * a + a' * a' - (b * b + b' * b')) with ((a - b) * (a + b) + (a' - b') * (a' + b')) by ring.
  set (u := a - b). set (w := a' - b'). set (p := a + b). set (q := a' + b').
  assert (K : p * p + q * q <= 4).
  { unfold p, q. pose proof (Rle_0_sqr (a - b)). pose proof (Rle_0_sqr (a' - b')). unfold Rsqr in *. lra. }
  replace (a + - b) with u by (unfold u; ring). replace (a' + - b') with w by (unfold w; ring).
  pose proof (Rle_0_sqr (u * q - w * p)) as J. unfold Rsqr in J.
  assert ((u * p + w * q) ^ 2 + (u * q - w * p) * (u * q - w * p) = (u * u + w * w) * (p * p + q * q)) by ring.
  assert (0 <= u * u + w * w) by nra. nra.
Qed.
Lemma sq_lin : forall (x y c : R), x ^ 2 <= y -> 0 <= c <= 2 -> (c * x) ^ 2 <= 4 * y.
Proof. intros x y c H [H1 H2]. replace ((c * x) ^ 2) with ((c * c) * x ^ 2) by ring. pose proof (pow2_ge_0 x). assert (c * c <= 4) by nra. nra. Qed.
(** Two power tables that differ by at most d give Hessians that differ by at most 2 d. *)
Lemma hu_close : forall pn sn pn' sn' t a b M, (forall k, In k (ids t) -> (pn k - pn' k) ^ 2 <= M /\ (sn k - sn' k) ^ 2 <= M) -> 0 <= M ->
  In (snd a) (ids t) -> In (snd b) (ids t) -> (hu pn sn t a b - hu pn' sn' t a b) ^ 2 <= 4 * M.
Proof.
  intros pn sn pn' sn' t a b M H HM Ha Hb. destruct (H _ Ha) as [A1 A2]. destruct (H _ Hb) as [B1 B2]. unfold hu, lift, wt.
  assert (Z : (0 - 0) ^ 2 <= 4 * M) by nra.
  assert (S : forall u w c, (u - w) ^ 2 <= M -> 0 <= c <= 2 -> (c * u - c * w) ^ 2 <= 4 * M).
  { intros u w c K1 K2. replace (c * u - c * w) with (c * (u - w)) by ring. apply sq_lin; assumption. }
  repeat match goal with |- context [if ?c then _ else _] => destruct c end; try exact Z;
  match goal with
  | |- (2 * (?u / 2) - 2 * (?w / 2)) ^ 2 <= _ => replace (2 * (u / 2) - 2 * (w / 2)) with (1 * u - 1 * w) by field; apply S; [assumption | lra]
  | |- (2 * ?u - 2 * ?w) ^ 2 <= _ => apply S; [assumption | lra]
  | |- (?u / 2 - ?w / 2) ^ 2 <= _ => replace (u / 2 - w / 2) with (/ 2 * u - / 2 * w) by field; apply S; [assumption | lra]
  | |- (?u - ?w) ^ 2 <= _ => replace (u - w) with (1 * u - 1 * w) by ring; apply S; [assumption | lra]
  end.
Qed.

(** Everything about one programmed unit, for any guard. *)
Lemma hessian_ready_eps : forall eps n balanced v, 0 <= eps -> (2 <= n)%nat -> 0 < power n v ->
  exists m p q T h, conj_unit eps (normalize n v) n balanced = Some (m, p) /\ hessian_vector_unit eps v n balanced = Some h /\
    NoDup (ids T) /\ (forall i, In i (ids T) <-> (i < n - 1)%nat) /\
    (forall p', exists y, matrix_fn m false p' (fun i => Cconj (normalize n v i)) = Some y /\ y (n - 1)%nat = (cis (gammas p' (n - 1)%nat) * za (zp p') (fun i => Cconj (normalize n v i)) T)%C) /\
    (forall a b, h a b = hu (fst q) (snd q) T (fst (pair_of n a b)) (snd (pair_of n a b))) /\
    (forall a b, (a < 2 * (n - 1))%nat -> (b < 2 * (n - 1))%nat ->
       (hu (fst q) (snd q) T (ph_of n a) (ph_of n b)
        - 2 * re (cis (gammas p (n - 1)%nat) * dif2 (zp p) (fun i => Cconj (normalize n v i)) (ph_of n a) (ph_of n b) T)%C) ^ 2 <= 72 * INR (n - 1) * eps) /\
    every (fun nd A B => Cn2 (za (zp p) (fun i => Cconj (normalize n v i)) (Nd nd A B)) = fst q (node_id nd) /\
      Cn2 (za (zp p) (fun i => Cconj (normalize n v i)) A) = snd q (node_id nd)) T /\
    leaves T = seq 0 n /\ below (fun i => Cconj (normalize n v i)) T - Cn2 (za (zp p) (fun i => Cconj (normalize n v i)) T) <= 2 * INR (n - 1) * eps.
Proof.
  intros eps n balanced v He Hn Hv.
  destruct (tree_progable n n balanced TOP Hn (Nat.le_refl n)) as (t & m & Et & Es & Hp & _ & En & _).
  destruct (unit_bt n balanced TOP t Hn Et) as (T & T1 & T2 & T3 & T4 & T5).
  rewrite <- En in T1.
  set (x := fun i => Cconj (normalize n v i)).
  destruct (unit_programmed_eps eps n m x T He Hn Hp T1 T2 T3 T4) as (p & q & W & E1 & E2 & E3 & E4 & _ & E6).
  assert (Hids : Permutation (ids T) (seq 0 (n - 1))) by (unfold ids; rewrite T1; apply (pg_null _ _ _ Hp)).
  assert (ND : NoDup (ids T)) by (eapply Permutation_NoDup; [apply Permutation_sym, Hids | apply seq_NoDup]).
  assert (IN : forall i, In i (ids T) <-> (i < n - 1)%nat).
  { intro i. split; intro H.
    - apply (Permutation_in _ Hids) in H. apply in_seq in H. lia.
    - apply (Permutation_in _ (Permutation_sym Hids)). apply in_seq. lia. }
  assert (EC : conj_unit eps (normalize n v) n balanced = Some (m, p)).
  { unfold conj_unit, vector_unit. rewrite Et. cbn [obind]. rewrite Es. cbn [obind]. unfold x in E1. rewrite E1. reflexivity. }
  assert (OUT : forall p', exists y, matrix_fn m false p' x = Some y /\ y (n - 1)%nat = (cis (gammas p' (n - 1)%nat) * za (zp p') x T)%C).
  { intro p'. rewrite <- za_amp. destruct (E6 p') as [H | H]; [| exact H]. rewrite (progable_matrix n TOP m p' x Hp) in H. discriminate. }
  exists m, p, q, T, (hess_matrix n (hess_blocks (fst q) (snd q) (descendants n balanced))).
  split; [exact EC |]. split; [unfold hessian_vector_unit; cbv zeta; rewrite EC; cbn [obind fst]; unfold x in E2; rewrite E2; reflexivity |].
  split; [exact ND |]. split; [exact IN |]. split; [exact OUT |]. split; [intros a b; apply hess_matrix_hu; assumption |].
  set (g := cis (gammas p (n - 1)%nat)).
  assert (NDl : NoDup (leaves T)) by (rewrite T2; apply seq_NoDup).
  (* misfit *)
  assert (MF : 2 - 2 * re (g * za (zp p) x T)%C <= 2 * INR (n - 1) * eps).
  { destruct (unit_minimum_eps eps n balanced v He Hn Hv) as (m' & p' & EC' & [_ M] & _). rewrite EC in EC'. apply Some_inj in EC'.
    pose proof (f_equal fst EC') as K1. pose proof (f_equal snd EC') as K2. cbn [fst snd] in K1, K2. subst m' p'.
    unfold misfit in M. destruct (OUT p) as (y & Ey & Ey'). unfold x in Ey. rewrite Ey in M. rewrite Ey' in M. exact M. }
  set (c := Cconj g). set (w0 := push (zp p) T c).
  assert (Hc : Cn2 c = 1) by (unfold c, g; rewrite Cn2_conj; apply Cn2_cis).
  destruct (push_spec (zp p) (zp_unit p) T c NDl) as [W1 W2]. fold w0 in W1, W2.
  assert (BX : below x T = 1).
  { pose proof (normal_power n v Hv) as K. fold x in K. rewrite <- K. unfold below, power. rewrite T2. clear.
    assert (G : forall k s, fold_right Rplus 0 (map (fun r => Cn2 (x r)) (seq s k)) = Rsum k (fun i => Cn2 (x (s + i)%nat))).
    { induction k as [| k IH]; intro s; [reflexivity |]. rewrite seq_S, map_app, fold_right_app. cbn [map fold_right Rsum].
      replace (Cn2 (x (s + k)%nat) + 0) with (0 + Cn2 (x (s + k)%nat)) by ring. rewrite <- IH.
      generalize (map (fun r => Cn2 (x r)) (seq s k)) as l. generalize (Cn2 (x (s + k)%nat)) as e. intros e l. induction l as [| h l IHl]; cbn; [ring | rewrite IHl; ring]. }
    rewrite G. reflexivity. }
  split; [| split; [revert E3; apply every_impl; intros nd A B (_ & K); exact K | split; [exact T2 |]]].
  2: { assert (K : Cn2 (g * za (zp p) x T)%C = Cn2 (za (zp p) x T)) by (rewrite Cn2_mul; unfold g; rewrite Cn2_cis; ring).
       fold x. rewrite BX, <- K. set (G := (g * za (zp p) x T)%C) in *. unfold Cn2.
       pose proof (Rle_0_sqr (1 - re G)) as S1. pose proof (Rle_0_sqr (im G)) as S2. unfold Rsqr in S1, S2. lra. }
  intros a b Ha Hb.
  assert (BW : below w0 T = 1) by (unfold w0; rewrite (below_push (zp p) (zp_unit p) T c NDl); exact Hc).
  set (d := fun i => (x i - w0 i)%C).
  set (M := below d T).
  assert (HM : M <= 2 * INR (n - 1) * eps).
  { unfold M, d. rewrite below_sub, BX, BW. unfold w0. rewrite (push_dot (zp p) T c x NDl). unfold c. rewrite Cconj_conj. lra. }
  assert (M0 : 0 <= M) by (pose proof (za_le p d T) as K; fold M in K; pose proof (Cn2_nonneg (za (zp p) d T)); lra).
  (* the exact tables *)
  set (pn0 := look (fun nd A B => Cn2 (za (zp p) w0 (Nd nd A B))) T). set (sn0 := look (fun nd A B => Cn2 (za (zp p) w0 A)) T).
  assert (G0 : every (good (zp p) w0 pn0 sn0) T).
  { pose proof (every_and _ _ T W2 (every_and _ _ T (every_look (fun nd A B => Cn2 (za (zp p) w0 (Nd nd A B))) T ND) (every_look (fun nd A B => Cn2 (za (zp p) w0 A)) T ND))) as K.
    revert K. apply every_impl. intros nd A B (K1 & K2 & K3). split; [exact K1 | split; [symmetry; exact K2 | symmetry; exact K3]]. }
  assert (CL : forall k, In k (ids T) -> (fst q k - pn0 k) ^ 2 <= 4 * M /\ (snd q k - sn0 k) ^ 2 <= 4 * M).
  { intros k Hk.
    pose proof (every_and _ _ T E3 (every_and _ _ T G0 (every_and _ _ T (every_le p x T 1 ltac:(lra)) (every_and _ _ T (every_le p w0 T 1 ltac:(lra)) (every_le p d T M (Rle_refl M)))))) as K.
    destruct (every_in _ T k K Hk) as (nd & A & B & <- & (_ & K1 & K2) & (_ & K3 & K4) & (K5 & K6) & (K7 & K8) & (K9 & K10)).
    rewrite <- K1, <- K2, <- K3, <- K4. unfold d in K9, K10. rewrite za_sub in K9, K10. split.
    - eapply Rle_trans; [apply cn2_diff; assumption | lra].
    - eapply Rle_trans; [apply cn2_diff; assumption | lra]. }
  assert (Pin : forall e, (e < 2 * (n - 1))%nat -> In (snd (ph_of n e)) (ids T)).
  { intros e H. apply IN. unfold ph_of. destruct (Nat.ltb_spec e (n - 1)); cbn [snd]; lia. }
  pose proof (hu_close (fst q) (snd q) pn0 sn0 T (ph_of n a) (ph_of n b) (4 * M) CL ltac:(lra) (Pin a Ha) (Pin b Hb)) as H1.
  pose proof (dif2_hu (zp p) w0 pn0 sn0 (zp_unit p) (zp_quad p) (ph_of n a) (ph_of n b) T G0 ND (Pin a Ha) (Pin b Hb)) as H2.
  rewrite W1 in H2. unfold c in H2. rewrite Cconj_conj in H2. rewrite <- H2 in H1.
  pose proof (dif2_le n p d a b T ND) as H3. fold M in H3. unfold d in H3. rewrite dif2_sub in H3.
  assert (H4 : Cn2 (g * (dif2 (zp p) x (ph_of n a) (ph_of n b) T - dif2 (zp p) w0 (ph_of n a) (ph_of n b) T))%C <= M).
  { rewrite Cn2_mul. unfold g. rewrite Cn2_cis. lra. }
  set (X := dif2 (zp p) x (ph_of n a) (ph_of n b) T) in *. set (X0 := dif2 (zp p) w0 (ph_of n a) (ph_of n b) T) in *.
  set (H := hu (fst q) (snd q) T (ph_of n a) (ph_of n b)) in *.
  assert (H5 : re (g * (X - X0))%C ^ 2 <= M) by (eapply Rle_trans; [| exact H4]; unfold Cn2; pose proof (Rle_0_sqr (im (g * (X - X0))%C)); unfold Rsqr in *; lra).
  replace (re (g * (X - X0))%C) with (re (g * X)%C - re (g * X0)%C) in H5 by (destruct g, X, X0; cbn; ring).
  assert (H6 : (H - 2 * re (g * X)%C) ^ 2 <= 36 * M).
  { set (u := re (g * X)%C) in *. set (u0 := re (g * X0)%C) in *.
    replace (H - 2 * u) with ((H - 2 * u0) - 2 * (u - u0)) by ring. set (r := H - 2 * u0) in *. set (s := u - u0) in *.
    (* |r| <= 4 sqrt M, |s| <= sqrt M : (r - 2 s)^2 <= 3/2 r^2 + 3 (2 s)^2 *)
    pose proof (Rle_0_sqr (r + 4 * s)) as Q. unfold Rsqr in Q. nra. }
  lra.
Qed.

Lemma misfit_form : forall m n x p T a b s u, NoDup (ids T) ->
  (forall p', exists y, matrix_fn m false p' x = Some y /\ y (n - 1)%nat = (cis (gammas p' (n - 1)%nat) * za (zp p') x T)%C) ->
  misfit m n x (bump n (bump n p a s) b u) =
  2 - 2 * re (cis (gammas p (n - 1)%nat) * za (zp p) x T + cis (gammas p (n - 1)%nat) * dif (zp p) x (ph_of n a) T * (cis s - C1)
     + cis (gammas p (n - 1)%nat) * dif (zp p) x (ph_of n b) T * (cis u - C1)
     + cis (gammas p (n - 1)%nat) * dif2 (zp p) x (ph_of n a) (ph_of n b) T * (cis s - C1) * (cis u - C1))%C.
Proof.
  intros m n x p T a b s u ND OUT. unfold misfit. destruct (OUT (bump n (bump n p a s) b u)) as (y & -> & ->).
  rewrite !bump_gammas, zp_bump2, (za_bump (zp p) x _ _ _ _ T ND). do 3 f_equal. ring.
Qed.
Lemma second_form : forall m n x p T a b, NoDup (ids T) ->
  (forall p', exists y, matrix_fn m false p' x = Some y /\ y (n - 1)%nat = (cis (gammas p' (n - 1)%nat) * za (zp p') x T)%C) ->
  second_partial m n x p a b (2 * re (cis (gammas p (n - 1)%nat) * dif2 (zp p) x (ph_of n a) (ph_of n b) T)%C).
Proof.
  intros m n x p T a b ND OUT. unfold second_partial. eapply mixed_ext; [intros; symmetry; apply (misfit_form m n x p T a b s u ND OUT) |]. apply mixed_form.
Qed.

Lemma hessian_blocks_eps : forall eps n balanced v, 0 <= eps -> (2 <= n)%nat -> 0 < power n v ->
  exists m p h, conj_unit eps (normalize n v) n balanced = Some (m, p) /\ hessian_vector_unit eps v n balanced = Some h /\
    forall a b, (a < 2 * (n - 1))%nat -> (b < 2 * (n - 1))%nat ->
      (same_kind n a b -> exists d, second_partial m n (fun i => Cconj (normalize n v i)) p a b d /\ (h a b - d) ^ 2 <= 72 * INR (n - 1) * eps) /\
      (~ same_kind n a b -> exists d, second_partial m n (fun i => Cconj (normalize n v i)) p (other n a) (other n b) d /\ (h a b - d) ^ 2 <= 72 * INR (n - 1) * eps) /\
      h a b = h b a.
Proof.
  intros eps n balanced v He Hn Hv. destruct (hessian_ready_eps eps n balanced v He Hn Hv) as (m & p & q & T & h & E1 & E2 & Hnd & Hin & OUT & Eh & Cl & _).
  exists m, p, h. split; [exact E1 |]. split; [exact E2 |]. intros a b Ha Hb. split; [| split].
  - intros [S1 S2]. rewrite Eh. unfold pair_of. eexists. split; [apply (second_form m n _ p T a b Hnd OUT) |]. pose proof (Cl a b Ha Hb) as H. unfold ph_of in *.
    destruct (Nat.ltb_spec a (n - 1)), (Nat.ltb_spec b (n - 1)); try lia; exact H.
  - intros S. rewrite Eh. unfold pair_of.
    assert (Hoa : (other n a < 2 * (n - 1))%nat) by (unfold other; destruct (Nat.ltb_spec a (n - 1)); lia).
    assert (Hob : (other n b < 2 * (n - 1))%nat) by (unfold other; destruct (Nat.ltb_spec b (n - 1)); lia).
    eexists. split; [apply (second_form m n _ p T (other n a) (other n b) Hnd OUT) |].
    pose proof (Cl (other n a) (other n b) Hoa Hob) as H. unfold ph_of, other in *. unfold same_kind in S.
    destruct (Nat.ltb_spec a (n - 1)) as [La | La], (Nat.ltb_spec b (n - 1)) as [Lb | Lb]; try (exfalso; apply S; lia).
    + destruct (Nat.ltb_spec (a + (n - 1)) (n - 1)) as [K | K]; [lia |]. destruct (Nat.ltb_spec (b - (n - 1)) (n - 1)) as [K' | K']; [| lia].
      replace (a + (n - 1) - (n - 1))%nat with a in * by lia. cbn [fst snd]. rewrite (hu_sym _ _ T (false, _)) by exact Hnd. exact H.
    + destruct (Nat.ltb_spec (b + (n - 1)) (n - 1)) as [K | K]; [lia |]. destruct (Nat.ltb_spec (a - (n - 1)) (n - 1)) as [K' | K']; [| lia].
      replace (b + (n - 1) - (n - 1))%nat with b in * by lia. cbn [fst snd]. exact H.
  - rewrite !Eh. unfold pair_of. destruct (Nat.ltb a (n - 1)), (Nat.ltb b (n - 1)); cbn [fst snd]; try reflexivity; apply hu_sym; exact Hnd.
Qed.

Lemma hessian_fd_eps : forall eps n balanced v error, 0 <= eps -> (2 <= n)%nat -> 0 < power n v -> error <> 0 ->
  exists h hf, hessian_vector_unit eps v n balanced = Some h /\ hessian_fd eps v n balanced error = Some hf /\
    forall a b, (a < 2 * (n - 1))%nat -> (b < 2 * (n - 1))%nat -> (hf a b - (sin error / error) ^ 2 * h a b) ^ 2 <= (sin error / error) ^ 4 * (72 * INR (n - 1) * eps).
Proof.
  intros eps n balanced v error Hep Hn Hv He. destruct (hessian_ready_eps eps n balanced v Hep Hn Hv) as (m & p & q & T & h & E1 & E2 & Hnd & Hin & OUT & Eh & Cl & _).
  exists h. eexists. split; [exact E2 |]. split; [unfold hessian_fd; cbv zeta; rewrite E1; cbn [obind fst snd]; reflexivity |].
  set (x := fun i => Cconj (normalize n v i)) in *.
  assert (Hm : forall p', re (fd_err m (normalize n v) n p') = misfit m n x p').
  { intro p'. destruct (fd_err_misfit m (normalize n v) n p') as [K | K]; [exact K |].
    destruct (OUT p') as (y & Ey & _). unfold x in Ey. congruence. }
  assert (G : forall (F : R -> R -> params) a b, (a < 2 * (n - 1))%nat -> (b < 2 * (n - 1))%nat -> (forall s u, F s u = bump n (bump n p a s) b u) ->
    (fd_quot (fun s u => fd_err m (normalize n v) n (F s u)) error - (sin error / error) ^ 2 * hu (fst q) (snd q) T (ph_of n a) (ph_of n b)) ^ 2
      <= (sin error / error) ^ 4 * (72 * INR (n - 1) * eps)).
  { intros F a b Ha Hb HF. unfold fd_quot. rewrite !Hm, !HF.
    rewrite (fd_form (fun s u => misfit m n x (bump n (bump n p a s) b u)) _ _ _ _ error He (fun s u => misfit_form m n x p T a b s u Hnd OUT)).
    pose proof (Cl a b Ha Hb) as K. set (r := sin error / error). set (H := hu (fst q) (snd q) T (ph_of n a) (ph_of n b)) in *.
    match goal with |- (r ^ 2 * ?d - r ^ 2 * H) ^ 2 <= _ => replace ((r ^ 2 * d - r ^ 2 * H) ^ 2) with (r ^ 4 * (H - d) ^ 2) by ring end.
    apply Rmult_le_compat_l; [replace (r ^ 4) with (r ^ 2 * r ^ 2) by ring; apply Rmult_le_pos; apply pow2_ge_0 | exact K]. }
  assert (BT : forall p' i s, (i < n - 1)%nat -> plus_theta p' i s = bump n p' i s).
  { intros p' i s Hi. unfold plus_theta, bump. destruct (Nat.ltb_spec i (n - 1)); [reflexivity | lia]. }
  assert (BP : forall p' i s, plus_phi p' i s = bump n p' (i + (n - 1))%nat s).
  { intros p' i s. unfold plus_phi, bump. destruct (Nat.ltb_spec (i + (n - 1)) (n - 1)); [lia |]. replace (i + (n - 1) - (n - 1))%nat with i by lia. reflexivity. }
  assert (PT : forall i, (i < n - 1)%nat -> ph_of n i = (false, i)) by (intros i Hi; unfold ph_of; destruct (Nat.ltb_spec i (n - 1)); [reflexivity | lia]).
  assert (PP : forall i, ph_of n (i + (n - 1)) = (true, i)) by (intros i; unfold ph_of; destruct (Nat.ltb_spec (i + (n - 1)) (n - 1)); [lia | f_equal; lia]).
  intros a b Ha Hb. cbv beta. rewrite Eh. unfold pair_of.
  destruct (Nat.ltb_spec a (n - 1)) as [La | La], (Nat.ltb_spec b (n - 1)) as [Lb | Lb]; cbn [fst snd].
  - rewrite <- (PT a La), <- (PT b Lb). apply (G (fun s t => plus_theta (plus_theta p a s) b t) a b); [lia | lia |]. intros s u. rewrite !BT by assumption. reflexivity.
  - rewrite <- (PP a), <- (PT (b - (n - 1))%nat) by lia. apply (G (fun s t => plus_phi (plus_theta p (b - (n - 1)) s) a t) (b - (n - 1))%nat (a + (n - 1))%nat); [lia | lia |].
    intros s u. rewrite BP, BT by lia. reflexivity.
  - rewrite <- (PP b), <- (PT (a - (n - 1))%nat) by lia. apply (G (fun s t => plus_phi (plus_theta p (a - (n - 1)) s) b t) (a - (n - 1))%nat (b + (n - 1))%nat); [lia | lia |].
    intros s u. rewrite BP, BT by lia. reflexivity.
  - rewrite <- (PP (a - (n - 1))%nat), <- (PP (b - (n - 1))%nat).
    apply (G (fun s t => plus_phi (plus_phi p (a - (n - 1)) s) (b - (n - 1)) t) (a - (n - 1) + (n - 1))%nat (b - (n - 1) + (n - 1))%nat); [lia | lia |].
    intros s u. rewrite !BP. reflexivity.
Qed.

(** The transposed blocks, with the guard. *)
Lemma every_lost : forall p x t L, below x t - Cn2 (za (zp p) x t) <= L ->
  every (fun nd A B => below x (Nd nd A B) - Cn2 (za (zp p) x (Nd nd A B)) <= L /\ below x A - Cn2 (za (zp p) x A) <= L) t.
Proof.
  intros p x t L. induction t as [r | nd A IHA B IHB]; intro H; [exact I |].
  pose proof (za_le p x A) as L2. pose proof (za_le p x B) as L3.
  pose proof (quad_unit_power _ (zp_quad p (node_id nd)) (za (zp p) x A) (za (zp p) x B)) as E. unfold qtop, qbot in E. cbn [t11 t12 t21 t22] in E.
  pose proof (Cn2_nonneg (zq11 (zp p) (node_id nd) * za (zp p) x A + zq21 (zp p) (node_id nd) * za (zp p) x B)%C) as P.
  rewrite below_nd in H. cbn [za] in H. split; [split; [rewrite below_nd; cbn [za]; lra | lra] |]. split; [apply IHA | apply IHB]; lra.
Qed.
Lemma below_ge : forall x t mu, (forall r, In r (leaves t) -> mu <= Cn2 (x r)) -> mu <= below x t.
Proof.
  intros x t mu. induction t as [r | nd A IHA B IHB]; intro H; cbn [leaves] in H.
  - specialize (H r (or_introl eq_refl)). unfold below. cbn. lra.
  - rewrite below_nd. pose proof (IHA ltac:(intros; apply H, in_or_app; auto)).
    assert (0 <= below x B) by (unfold below; generalize (leaves B); induction l as [| r l IH]; cbn; [lra | pose proof (Cn2_nonneg (x r)); lra]). lra.
Qed.
Lemma some_wrong_eps : forall n p x (q : (nat -> R) * (nat -> R)) t mu L, (3 <= n)%nat -> NoDup (ids t) -> (forall i, In i (ids t) <-> (i < n - 1)%nat) ->
  (forall r, In r (leaves t) -> mu <= Cn2 (x r)) ->
  every (fun nd A B => Cn2 (za (zp p) x (Nd nd A B)) = fst q (node_id nd) /\ Cn2 (za (zp p) x A) = snd q (node_id nd)) t ->
  below x t - Cn2 (za (zp p) x t) <= L ->
  exists i j, (i < n - 1)%nat /\ (j < n - 1)%nat /\ mu - L <= Rabs (hu (fst q) (snd q) t (false, i) (true, j) - hu (fst q) (snd q) t (true, i) (false, j)).
Proof.
  intros n p x q t mu L Hn Hnd Hin Hp Hq HL. pose proof (every_lost p x t L HL) as Hl.
  destruct t as [r | nd A B]; [exfalso; apply (proj2 (Hin 0%nat)); lia |].
  rewrite ids_nd in Hnd. apply NoDup_cons_iff in Hnd. destruct Hnd as [Hk Hd].
  destruct Hq as (_ & HA & HB). destruct Hl as (_ & LA & LB).
  destruct B as [r | nd' B1 B2]; [destruct A as [r' | nd' A1 A2] |].
  - exfalso. assert (H0 : In 0%nat (ids (Nd nd (Lf r') (Lf r)))) by (apply Hin; lia). assert (H1 : In 1%nat (ids (Nd nd (Lf r') (Lf r)))) by (apply Hin; lia).
    cbn in H0, H1. destruct H0 as [H0 | []]. destruct H1 as [H1 | []]. lia.
  - exists (node_id nd'), (node_id nd).
    assert (I1 : In (node_id nd') (ids (Nd nd' A1 A2))) by (rewrite ids_nd; left; reflexivity).
    assert (Ne : node_id nd' <> node_id nd) by (intro K; apply Hk; rewrite <- K; apply in_or_app; left; exact I1).
    split; [apply Hin; rewrite ids_nd; right; apply in_or_app; auto |]. split; [apply Hin; rewrite ids_nd; left; reflexivity |].
    assert (D1 : tdesc (Nd nd (Nd nd' A1 A2) (Lf r)) (node_id nd') (node_id nd) = false).
    { apply tdesc_anti; [rewrite ids_nd; constructor; assumption |]. cbn [tdesc]. rewrite Nat.eqb_refl, mem_in; [reflexivity | apply in_or_app; auto]. }
    assert (D2 : tdesc (Nd nd (Nd nd' A1 A2) (Lf r)) (node_id nd) (node_id nd') = true).
    { cbn [tdesc]. rewrite Nat.eqb_refl, mem_in; [reflexivity | apply in_or_app; auto]. }
    assert (D3 : ttop (Nd nd (Nd nd' A1 A2) (Lf r)) (node_id nd) (node_id nd') = true).
    { cbn [ttop]. rewrite Nat.eqb_refl, mem_in; [reflexivity | exact I1]. }
    unfold hu, lift. cbn [fst snd]. replace (Nat.eqb (node_id nd') (node_id nd)) with false by (symmetry; apply Nat.eqb_neq; exact Ne).
    rewrite D1, D2, D3. unfold wt. cbn [fst snd]. destruct HA as ((G2 & G3) & HA1 & HA2). destruct LA as ((G4 & _) & _).
    rewrite <- G2, <- G3. rewrite below_nd in G4. pose proof (za_le p x A1) as G5.
    assert (mu <= below x A2) by (apply below_ge; intros r0 Hr; apply Hp; cbn; apply in_or_app; left; apply in_or_app; auto).
    eapply Rle_trans; [| apply Rle_abs]. lra.
  - exists (node_id nd), (node_id nd').
    assert (I1 : In (node_id nd') (ids (Nd nd' B1 B2))) by (rewrite ids_nd; left; reflexivity).
    assert (Ne : node_id nd' <> node_id nd) by (intro K; apply Hk; rewrite <- K; apply in_or_app; right; exact I1).
    split; [apply Hin; rewrite ids_nd; left; reflexivity |]. split; [apply Hin; rewrite ids_nd; right; apply in_or_app; auto |].
    assert (D2 : tdesc (Nd nd A (Nd nd' B1 B2)) (node_id nd) (node_id nd') = true).
    { cbn [tdesc]. rewrite Nat.eqb_refl, mem_in; [reflexivity | apply in_or_app; auto]. }
    assert (D3 : ttop (Nd nd A (Nd nd' B1 B2)) (node_id nd) (node_id nd') = false).
    { assert (NA : ~ In (node_id nd') (ids A)) by (intro K; apply (nodup_app_disj _ _ _ _ Hd K I1)).
      change ((Nat.eqb (node_id nd) (node_id nd) && mem (node_id nd') (ids A) || ttop A (node_id nd) (node_id nd') || ttop (Nd nd' B1 B2) (node_id nd) (node_id nd'))%bool = false).
      rewrite mem_out, (ttop_out2 A), ttop_out1; [rewrite andb_false_r; reflexivity | | exact NA | exact NA]. intro K. apply Hk. apply in_or_app. auto. }
    unfold hu, lift. cbn [fst snd]. replace (Nat.eqb (node_id nd) (node_id nd')) with false by (symmetry; apply Nat.eqb_neq; congruence).
    rewrite D2, D3. unfold wt. cbn [fst snd]. destruct HB as ((G2 & G3) & HB1 & HB2). destruct LB as ((_ & G4) & _).
    rewrite <- G3.
    assert (mu <= below x B1) by (apply below_ge; intros r0 Hr; apply Hp; cbn; apply in_or_app; right; apply in_or_app; auto).
    eapply Rle_trans; [| apply Rle_abs]. lra.
Qed.
Lemma hessian_wrong_eps : forall eps n balanced v mu, 0 <= eps -> (3 <= n)%nat -> 0 < mu -> 0 < power n v -> (forall i, (i < n)%nat -> mu <= Cn2 (normalize n v i)) ->
  7200 * INR (n - 1) * eps <= mu ^ 2 ->
  exists m p h a b d, conj_unit eps (normalize n v) n balanced = Some (m, p) /\ hessian_vector_unit eps v n balanced = Some h /\
    (a < 2 * (n - 1))%nat /\ (b < 2 * (n - 1))%nat /\ second_partial m n (fun i => Cconj (normalize n v i)) p a b d /\ mu / 2 <= Rabs (h a b - d).
Proof.
  intros eps n balanced v mu He Hn Hmu Hv Hx Hs.
  destruct (hessian_ready_eps eps n balanced v He ltac:(lia) Hv) as (m & p & q & T & h & E1 & E2 & Hnd & Hin & OUT & Eh & Cl & Hq & EL & HL).
  set (x := fun i => Cconj (normalize n v i)) in *.
  destruct (some_wrong_eps n p x q T mu (2 * INR (n - 1) * eps) Hn Hnd Hin) as (i & j & Hi & Hj & Hne); [| exact Hq | exact HL |].
  { intros r Hr. rewrite EL in Hr. apply in_seq in Hr. unfold x. rewrite Cn2_conj. apply Hx. lia. }
  exists m, p, h, (i + (n - 1))%nat, j. eexists. split; [exact E1 |]. split; [exact E2 |]. split; [lia |]. split; [lia |].
  split; [apply (second_form m n x p T _ _ Hnd OUT) |].
  pose proof (Cl (i + (n - 1))%nat j ltac:(lia) ltac:(lia)) as K. rewrite Eh. unfold pair_of. unfold ph_of in *.
  destruct (Nat.ltb_spec (i + (n - 1)) (n - 1)) as [B1 | B1]; [lia |]. destruct (Nat.ltb_spec j (n - 1)) as [B2 | B2]; [| lia].
  replace (i + (n - 1) - (n - 1))%nat with i in * by lia. cbn [fst snd].
  set (H := hu (fst q) (snd q) T (true, i) (false, j)) in *. set (H' := hu (fst q) (snd q) T (false, i) (true, j)) in *.
  match type of K with (H - ?dd) ^ 2 <= _ => set (D := dd) in * end.
  assert (Hmu1 : mu <= 1).
  { assert (P1 : power n x = 1) by (apply normal_power; exact Hv). rewrite <- P1. eapply Rle_trans; [apply (Hx 0%nat); lia |].
    unfold power. rewrite <- Cn2_conj. apply (Rsum_term_le n (fun i => Cn2 (x i)) 0%nat); [intros; apply Cn2_nonneg | lia]. }
  assert (Q : mu ^ 2 <= mu) by nra. assert (R0 : 0 <= mu ^ 2) by nra. set (tt := INR (n - 1) * eps) in *.
  replace (7200 * INR (n - 1) * eps) with (7200 * tt) in Hs by (unfold tt; ring). replace (72 * INR (n - 1) * eps) with (72 * tt) in K by (unfold tt; ring).
  replace (2 * INR (n - 1) * eps) with (2 * tt) in * by (unfold tt; ring).
  assert (Y : 2 * tt <= mu / 10) by lra.
  assert (Z : Rabs (H - D) <= mu / 10).
  { rewrite <- (Rabs_right (mu / 10)) by lra. apply Rsqr_le_abs_0. unfold Rsqr. replace ((H - D) * (H - D)) with ((H - D) ^ 2) by ring. replace (mu / 10 * (mu / 10)) with (mu ^ 2 / 100) by field. lra. }
  pose proof (Rabs_triang (H' - D) (D - H)) as Tr. replace (H' - D + (D - H)) with (H' - H) in Tr by ring. rewrite (Rabs_minus_sym D H) in Tr. lra.
Qed.
Lemma ex_v_guard : let eps := / 2 ^ 52 in let mu := 1 / 9 in
  0 <= eps /\ 0 < mu /\ (forall i, (i < 3)%nat -> mu <= Cn2 (normalize 3 ex_v i)) /\ 7200 * INR (3 - 1) * eps <= mu ^ 2.
Proof.
  cbv zeta. assert (P : 10 ^ 15 <= 2 ^ 52) by (compute; lra). assert (Q : 0 < 2 ^ 52) by (apply pow_lt; lra).
  split; [apply Rlt_le, Rinv_0_lt_compat; exact Q |]. split; [lra |]. split.
  - intros i Hi. unfold normalize. rewrite Cn2_mul, Cn2_RtoC, <- Rinv_mult, sqrt_def by (apply Rlt_le, ex_v_power).
    assert (E : Rsum 3 (fun i => Cn2 (ex_v i)) = 9) by (unfold ex_v, Cn2; cbn [Rsum Nat.eqb re im C1 RtoC]; lra). rewrite E.
    assert (1 <= Cn2 (ex_v i)) by (unfold ex_v, Cn2; destruct (Nat.eqb i 0), (Nat.eqb i 1); cbn; lra). lra.
  - assert (K : / 2 ^ 52 <= / 10 ^ 15) by (apply Rinv_le_contravar; [apply pow_lt; lra | exact P]).
    assert (K2 : / 10 ^ 15 <= / 10 ^ 8) by (apply Rinv_le_contravar; [apply pow_lt; lra | apply Rle_pow; [lra | lia]]).
    replace (INR (3 - 1)) with 2 by (cbn; ring). assert (7200 * 2 * / 10 ^ 8 <= (1 / 9) ^ 2) by lra. lra.
Qed.
