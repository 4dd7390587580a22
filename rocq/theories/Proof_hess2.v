(** Second derivatives of the value on a tree's last rail, when every node nulls its top output. *)
From Coq Require Import Reals Lra Lia List ZArith Bool Arith.
From Verif Require Import Cx Arr Model_coupling Model_forward Model_vector Proof_node Proof_mesh Proof_forward Proof_vector Proof_hess1.
Import ListNotations.
Local Open Scope R_scope.

(** A phase: (false, k) is theta_k, (true, k) is phi_k. *)
Definition phase := (bool * nat)%type.
Definition zmap := bool -> nat -> C.
Definition half : C := RtoC (1 / 2).
Definition zq12 (z : zmap) (k : nat) : C := (half * Ci * (C1 + z false k) * z true k)%C.
Definition zq22 (z : zmap) (k : nat) : C := (half * (C1 - z false k))%C.
Definition zq11 (z : zmap) (k : nat) : C := (half * (z false k - C1) * z true k)%C.
Definition zq21 (z : zmap) (k : nat) : C := (half * Ci * (C1 + z false k))%C.
Fixpoint za (z : zmap) (v : vec) (t : bt) : C := match t with
  | Lf r => v r
  | Nd nd T B => (zq12 z (node_id nd) * za z v T + zq22 z (node_id nd) * za z v B)%C end.
Definition ids (t : bt) : list nat := map node_id (tnodes t).
Definition zp (p : params) : zmap := fun b k => cis (if b then phis p k else thetas p k).

Lemma mzi_half : mzi_terms (0, 0) = (1 / 2, 1 / 2, 1 / 2, 1 / 2).
Proof.
  assert (H : / sqrt 2 * / sqrt 2 = / 2) by (rewrite <- Rinv_mult, sqrt_def by lra; reflexivity).
  unfold mzi_terms. cbn [fst snd]. rewrite Rplus_0_r, cos_PI4, sin_PI4.
  replace (1 / sqrt 2 * (1 / sqrt 2)) with (/ 2) by (unfold Rdiv; rewrite !Rmult_1_l; auto). repeat f_equal; lra.
Qed.
Lemma pn_z : forall p k, pn TOP (thetas p k) (phis p k) = mkQuad (zq11 (zp p) k) (zq12 (zp p) k) (zq21 (zp p) k) (zq22 (zp p) k).
Proof.
  intros p k. unfold pn, parallel_mzi. rewrite mzi_half. cbn [fst snd b2R].
  replace (ln 10 * 0 / 20) with 0 by field. rewrite ?Rmult_0_r, ?Rmult_0_l, ?Rminus_0_r, ?Rmult_1_r, !Cexp_imag, cis_0.
  unfold zq11, zq12, zq21, zq22, zp, half. f_equal; try ring.
  - replace (- (1/2)) with (-1 * (1 / 2)) by lra. rewrite RtoC_mul. change (RtoC (-1)) with (mkC (-1) 0). apply C_eq; cbn; ring.
Qed.
Lemma za_amp : forall p v t, amp p v t = za (zp p) v t.
Proof.
  intros p v. induction t as [r | nd T IHT B IHB]; [reflexivity |]. cbn [amp za]. unfold quadof. rewrite pn_z. unfold qbot. cbn [t12 t22].
  rewrite IHT, IHB. reflexivity.
Qed.

(** Multiplying one z by a factor. *)
Definition zbump (z : zmap) (x : phase) (c : C) : zmap := fun b k => if (Bool.eqb b (fst x) && Nat.eqb k (snd x))%bool then (z b k * c)%C else z b k.
Definition hit (x : phase) (b : bool) (k : nat) : bool := (Bool.eqb b (fst x) && Nat.eqb k (snd x))%bool.
Definition ind (b : bool) : C := if b then C1 else C0.
Definition d12 (z : zmap) (x : phase) (k : nat) : C :=
  (ind (hit x false k) * (half * Ci * z false k * z true k) + ind (hit x true k) * zq12 z k)%C.
Definition d22 (z : zmap) (x : phase) (k : nat) : C := (ind (hit x false k) * (- half * z false k))%C.
Definition dd12 (z : zmap) (x y : phase) (k : nat) : C :=
  (ind (hit x false k) * ind (hit y false k) * (half * Ci * z false k * z true k)
   + ind (hit x true k) * ind (hit y true k) * zq12 z k
   + (ind (hit x false k) * ind (hit y true k) + ind (hit x true k) * ind (hit y false k)) * (half * Ci * z false k * z true k))%C.
Definition dd22 (z : zmap) (x y : phase) (k : nat) : C := (ind (hit x false k) * ind (hit y false k) * (- half * z false k))%C.
Fixpoint dif (z : zmap) (v : vec) (x : phase) (t : bt) : C := match t with
  | Lf _ => C0
  | Nd nd T B => let k := node_id nd in
      (d12 z x k * za z v T + d22 z x k * za z v B + zq12 z k * dif z v x T + zq22 z k * dif z v x B)%C end.
Fixpoint dif2 (z : zmap) (v : vec) (x y : phase) (t : bt) : C := match t with
  | Lf _ => C0
  | Nd nd T B => let k := node_id nd in
      (dd12 z x y k * za z v T + dd22 z x y k * za z v B
       + d12 z x k * dif z v y T + d22 z x k * dif z v y B + d12 z y k * dif z v x T + d22 z y k * dif z v x B
       + zq12 z k * dif2 z v x y T + zq22 z k * dif2 z v x y B)%C end.

Lemma ids_nd : forall nd T B, ids (Nd nd T B) = node_id nd :: ids T ++ ids B.
Proof. intros. unfold ids. cbn [tnodes map]. rewrite map_app. reflexivity. Qed.
Lemma hit_out : forall x b k, snd x <> k -> hit x b k = false.
Proof. intros x b k H. unfold hit. destruct (Nat.eqb_spec k (snd x)); [congruence | apply andb_false_r]. Qed.
Lemma d12_out : forall z x k, snd x <> k -> d12 z x k = C0.
Proof. intros. unfold d12. rewrite !hit_out by assumption. cbn [ind]. ring. Qed.
Lemma d22_out : forall z x k, snd x <> k -> d22 z x k = C0.
Proof. intros. unfold d22. rewrite !hit_out by assumption. cbn [ind]. ring. Qed.
Lemma dd12_outx : forall z x y k, snd x <> k -> dd12 z x y k = C0.
Proof. intros. unfold dd12. rewrite !(hit_out x) by assumption. cbn [ind]. ring. Qed.
Lemma dd22_outx : forall z x y k, snd x <> k -> dd22 z x y k = C0.
Proof. intros. unfold dd22. rewrite !(hit_out x) by assumption. cbn [ind]. ring. Qed.
Lemma dd12_outy : forall z x y k, snd y <> k -> dd12 z x y k = C0.
Proof. intros. unfold dd12. rewrite !(hit_out y) by assumption. cbn [ind]. ring. Qed.
Lemma dd22_outy : forall z x y k, snd y <> k -> dd22 z x y k = C0.
Proof. intros. unfold dd22. rewrite !(hit_out y) by assumption. cbn [ind]. ring. Qed.
Section vals.
Variables (z : zmap) (v : vec).
Lemma dif_out : forall x t, ~ In (snd x) (ids t) -> dif z v x t = C0.
Proof.
  intros x t. induction t as [r | nd T IHT B IHB]; [reflexivity |]. rewrite ids_nd. intro H. cbn [dif].
  rewrite d12_out, d22_out, IHT, IHB; [ring | | | |]; intro K; apply H; [right | right | left | left]; auto; apply in_or_app; auto.
Qed.
Lemma dif2_outx : forall x y t, ~ In (snd x) (ids t) -> dif2 z v x y t = C0.
Proof.
  intros x y t. induction t as [r | nd T IHT B IHB]; [reflexivity |]. rewrite ids_nd. intro H. cbn [dif2].
  assert (K0 : snd x <> node_id nd) by (intro K; apply H; left; auto).
  assert (K1 : ~ In (snd x) (ids T)) by (intro K; apply H; right; apply in_or_app; auto).
  assert (K2 : ~ In (snd x) (ids B)) by (intro K; apply H; right; apply in_or_app; auto).
  rewrite dd12_outx, dd22_outx, d12_out, d22_out, (dif_out x T), (dif_out x B), IHT, IHB by assumption. ring.
Qed.
Lemma dif2_outy : forall x y t, ~ In (snd y) (ids t) -> dif2 z v x y t = C0.
Proof.
  intros x y t. induction t as [r | nd T IHT B IHB]; [reflexivity |]. rewrite ids_nd. intro H. cbn [dif2].
  assert (K0 : snd y <> node_id nd) by (intro K; apply H; left; auto).
  assert (K1 : ~ In (snd y) (ids T)) by (intro K; apply H; right; apply in_or_app; auto).
  assert (K2 : ~ In (snd y) (ids B)) by (intro K; apply H; right; apply in_or_app; auto).
  rewrite dd12_outy, dd22_outy, (d12_out z y), (d22_out z y), (dif_out y T), (dif_out y B), IHT, IHB by assumption. ring.
Qed.

(** Bumping x by the factor 1 + e and y by 1 + g. *)
Definition z2 (x y : phase) (e g : C) : zmap := zbump (zbump z x (C1 + e)%C) y (C1 + g)%C.
Lemma z2_val : forall x y e g b k, z2 x y e g b k = (z b k * (C1 + ind (hit x b k) * e) * (C1 + ind (hit y b k) * g))%C.
Proof.
  intros. unfold z2, zbump. fold (hit x b k). fold (hit y b k). destruct (hit x b k), (hit y b k); cbn [ind]; ring.
Qed.
Lemma hit2 : forall x k, hit x false k = true -> hit x true k = true -> False.
Proof. intros [[] i] k; unfold hit; cbn [fst Bool.eqb andb]; intros; discriminate. Qed.
Lemma q12_bump : forall x y e g k, zq12 (z2 x y e g) k = (zq12 z k + d12 z x k * e + d12 z y k * g + dd12 z x y k * e * g)%C.
Proof.
  intros. unfold dd12, d12. unfold zq12 at 1. rewrite !z2_val. pose proof (hit2 x k) as Hx. pose proof (hit2 y k) as Hy.
  destruct (hit x false k), (hit x true k), (hit y false k), (hit y true k); try (exfalso; auto; fail); cbn [ind]; unfold zq12; ring.
Qed.
Lemma q22_bump : forall x y e g k, zq22 (z2 x y e g) k = (zq22 z k + d22 z x k * e + d22 z y k * g + dd22 z x y k * e * g)%C.
Proof.
  intros. unfold dd22, d22. unfold zq22 at 1. rewrite !z2_val.
  destruct (hit x false k), (hit y false k); cbn [ind]; unfold zq22; ring.
Qed.
Lemma za_bump : forall x y e g t, NoDup (ids t) ->
  za (z2 x y e g) v t = (za z v t + dif z v x t * e + dif z v y t * g + dif2 z v x y t * e * g)%C.
Proof.
  intros x y e g t. induction t as [r | nd T IHT B IHB]; intro Hnd; [cbn; ring |]. rewrite ids_nd in Hnd.
  apply NoDup_cons_iff in Hnd. destruct Hnd as [Hn Hnd].
  pose proof (Proof_forward3.NoDup_app_fst _ _ _ Hnd) as HndT. pose proof (Proof_forward3.NoDup_app_snd _ _ _ Hnd) as HndB.
  cbn [za dif dif2]. rewrite q12_bump, q22_bump, IHT, IHB by assumption.
  assert (Hn1 : ~ In (node_id nd) (ids T)) by (intro K; apply Hn; apply in_or_app; auto).
  assert (Hn2 : ~ In (node_id nd) (ids B)) by (intro K; apply Hn; apply in_or_app; auto).
  destruct (Nat.eq_dec (snd x) (node_id nd)) as [Ex | Ex].
  - rewrite (dif_out x T), (dif_out x B), (dif2_outx x y T), (dif2_outx x y B) by (rewrite Ex; assumption).
    destruct (Nat.eq_dec (snd y) (node_id nd)) as [Ey | Ey].
    + rewrite (dif_out y T), (dif_out y B) by (rewrite Ey; assumption). ring.
    + rewrite (d12_out z y), (d22_out z y), (dd12_outy z x y), (dd22_outy z x y) by assumption. ring.
  - rewrite (d12_out z x), (d22_out z x), (dd12_outx z x y), (dd22_outx z x y) by assumption.
    destruct (Nat.eq_dec (snd y) (node_id nd)) as [Ey | Ey].
    + rewrite (dif_out y T), (dif_out y B), (dif2_outy x y T), (dif2_outy x y B) by (rewrite Ey; assumption). ring.
    + rewrite (d12_out z y), (d22_out z y) by assumption. ring.
Qed.

(** Every node nulls its top output; its powers are pnF (bottom output) and snF (top input). *)
Variables (pnF snF : nat -> R).
Hypothesis Hz : forall b k, (z b k * Cconj (z b k))%C = C1.
Hypothesis Hu : forall k, quad_unit (mkQuad (zq11 z k) (zq12 z k) (zq21 z k) (zq22 z k)).
Definition good (nd : node) (T B : bt) : Prop := let k := node_id nd in
  (zq11 z k * za z v T + zq21 z k * za z v B)%C = C0 /\ Cn2 (za z v (Nd nd T B)) = pnF k /\ Cn2 (za z v T) = snF k.


Lemma half_conj : Cconj half = half. Proof. apply Cconj_RtoC. Qed.
Section one.
Variables (k : nat) (a b : C).
Hypothesis Hnull : (zq11 z k * a + zq21 z k * b)%C = C0.
Let f := (zq12 z k * a + zq22 z k * b)%C.
Lemma a_f : a = (Cconj (zq12 z k) * f)%C.
Proof.
  pose proof (Hu k C1 C0 a b) as H. unfold qtop, qbot in H. cbn [t11 t12 t21 t22] in H. rewrite Hnull in H. fold f in H.
  rewrite Cconj_C1, Cconj_C0 in H. transitivity (C1 * a + C0 * b)%C; [ring |]. rewrite <- H.
  replace (zq12 z k * C1 + zq22 z k * C0)%C with (zq12 z k) by ring. ring.
Qed.
Lemma b_f : b = (Cconj (zq22 z k) * f)%C.
Proof.
  pose proof (Hu k C0 C1 a b) as H. unfold qtop, qbot in H. cbn [t11 t12 t21 t22] in H. rewrite Hnull in H. fold f in H.
  rewrite Cconj_C1, Cconj_C0 in H. transitivity (C0 * a + C1 * b)%C; [ring |]. rewrite <- H.
  replace (zq12 z k * C0 + zq22 z k * C1)%C with (zq22 z k) by ring. ring.
Qed.
Lemma cf_q12 : (Cconj f * zq12 z k)%C = Cconj a.
Proof. rewrite a_f. rewrite Cconj_mul, Cconj_conj. ring. Qed.
Lemma cf_q22 : (Cconj f * zq22 z k)%C = Cconj b.
Proof. rewrite b_f. rewrite Cconj_mul, Cconj_conj. ring. Qed.
Lemma theta_half : (half * Ci * z false k * z true k * a + - half * z false k * b)%C = (half * f)%C.
Proof.
  assert (E : (half * f - (half * Ci * z false k * z true k * a + - half * z false k * b))%C = (- (Ci * half) * (zq11 z k * a + zq21 z k * b))%C).
  { unfold f, zq11, zq12, zq21, zq22, half. apply C_eq; cbn; field. }
  rewrite Hnull in E. transitivity (half * f - (half * f - (half * Ci * z false k * z true k * a + - half * z false k * b)))%C; [ring |].
  rewrite E. ring.
Qed.
Lemma real_cross : im (Cconj b * z true k * a)%C = 0.
Proof.
  assert (E : (Cconj b * z true k * a)%C = (- Ci * (half * half * (Cconj (z false k) - z false k)) * RtoC (Cn2 f))%C).
  { rewrite b_f, a_f. rewrite Cconj_mul, Cconj_conj. unfold zq22. unfold zq12. rewrite <- Cmul_conj.
    rewrite !Cconj_mul, Cconj_add, Cconj_C1, Cconj_Ci, half_conj.
    transitivity (- Ci * half * half * (C1 - z false k + Cconj (z false k) - z false k * Cconj (z false k)) * (z true k * Cconj (z true k)) * (f * Cconj f))%C; [ring |].
    rewrite !Hz. ring. }
  rewrite E. unfold half. cbn. ring.
Qed.
Lemma cf_d12 : (Cconj f * (half * Ci * z false k * z true k))%C = (half * Cconj a - half * Ci * (Cconj b * z true k))%C.
Proof.
  rewrite <- cf_q12, <- cf_q22. replace (half * Ci * z false k * z true k)%C with (half * zq12 z k - half * Ci * (zq22 z k * z true k))%C; [ring |].
  unfold zq12, zq22, half. apply C_eq; cbn; field.
Qed.
Lemma cf_d22 : (Cconj f * (- half * z false k))%C = (half * Cconj b + half * Ci * (Cconj a * Cconj (z true k)))%C.
Proof.
  rewrite <- cf_q12, <- cf_q22. replace (- half * z false k)%C with (half * zq22 z k + half * Ci * (zq12 z k * Cconj (z true k)))%C; [ring |].
  unfold zq12. replace (half * Ci * (half * Ci * (C1 + z false k) * z true k * Cconj (z true k)))%C
    with (half * Ci * (half * Ci * (C1 + z false k)) * (z true k * Cconj (z true k)))%C by ring. rewrite Hz.
  unfold zq22, half. apply C_eq; cbn; field.
Qed.
End one.

Lemma dif_zero : forall x t, every good t -> za z v t = C0 -> dif z v x t = C0.
Proof.
  intros x. induction t as [r | nd T IHT B IHB]; [reflexivity |]. intros ((Hn & _) & GT & GB) H. cbn [za] in H.
  pose proof (a_f _ _ _ Hn) as Ea. pose proof (b_f _ _ _ Hn) as Eb. rewrite H in Ea, Eb.
  assert (Ea' : za z v T = C0) by (rewrite Ea; ring). assert (Eb' : za z v B = C0) by (rewrite Eb; ring).
  cbn [dif]. rewrite IHT, IHB, Ea', Eb' by assumption. ring.
Qed.
Definition wt (x : phase) : R := if fst x then snF (snd x) else pnF (snd x) / 2.
Lemma hit_in : forall b k, hit (b, k) b k = true.
Proof. intros. unfold hit. cbn. rewrite Nat.eqb_refl, Bool.eqb_reflx. reflexivity. Qed.
Lemma cmul_conj' : forall a, (Cconj a * a)%C = RtoC (Cn2 a).
Proof. intro a. rewrite <- Cmul_conj. ring. Qed.
Lemma dif_wt : forall x t, every good t -> NoDup (ids t) -> In (snd x) (ids t) -> (Cconj (za z v t) * dif z v x t)%C = RtoC (wt x).
Proof.
  intros x. induction t as [r | nd T IHT B IHB]; [intros _ _ [] |]. intros ((Hn & Hp & Hsn) & GT & GB) Hnd Hin.
  rewrite ids_nd in *. apply NoDup_cons_iff in Hnd. destruct Hnd as [Hk Hnd].
  pose proof (Proof_forward3.NoDup_app_fst _ _ _ Hnd) as HndT. pose proof (Proof_forward3.NoDup_app_snd _ _ _ Hnd) as HndB.
  assert (HkT : ~ In (node_id nd) (ids T)) by (intro K; apply Hk; apply in_or_app; auto).
  assert (HkB : ~ In (node_id nd) (ids B)) by (intro K; apply Hk; apply in_or_app; auto).
  destruct Hin as [E | Hin].
  - cbn [dif]. rewrite (dif_out x T), (dif_out x B) by (rewrite <- E; assumption).
    destruct x as [bx i]. cbn [snd] in E. subst i. unfold wt, d12, d22. cbn [fst snd]. destruct bx.
    + replace (hit (true, node_id nd) false (node_id nd)) with false by reflexivity. rewrite hit_in. cbn [ind].
      rewrite <- Hsn, <- cmul_conj'. cbn [za]. rewrite <- (cf_q12 _ _ _ Hn). ring.
    + replace (hit (false, node_id nd) true (node_id nd)) with false by reflexivity. rewrite hit_in. cbn [ind].
      transitivity (Cconj (za z v (Nd nd T B)) * (half * Ci * z false (node_id nd) * z true (node_id nd) * za z v T + - half * z false (node_id nd) * za z v B))%C; [ring |].
      rewrite (theta_half _ _ _ Hn). change (zq12 z (node_id nd) * za z v T + zq22 z (node_id nd) * za z v B)%C with (za z v (Nd nd T B)).
      transitivity (half * (Cconj (za z v (Nd nd T B)) * za z v (Nd nd T B)))%C; [ring |]. rewrite cmul_conj', Hp. unfold half. rewrite <- RtoC_mul. f_equal. lra.
  - assert (Ek : snd x <> node_id nd) by (intro K; apply Hk; rewrite <- K; exact Hin).
    cbn [dif]. rewrite d12_out, d22_out by assumption. apply in_app_or in Hin. destruct Hin as [Hin | Hin].
    + rewrite (dif_out x B) by (intro K; apply (nodup_app_disj _ _ _ _ Hnd Hin K)). rewrite <- (IHT GT HndT Hin), <- (cf_q12 _ _ _ Hn). cbn [za]. ring.
    + rewrite (dif_out x T) by (intro K; apply (nodup_app_disj _ _ _ _ Hnd K Hin)). rewrite <- (IHB GB HndB Hin), <- (cf_q22 _ _ _ Hn). cbn [za]. ring.
Qed.
End vals.
