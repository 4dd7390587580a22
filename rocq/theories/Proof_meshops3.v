(** psvd, element defaults, parameter arrays, back-of-the-envelope counts. *)
From Coq Require Import Reals Lra Lia List ZArith Bool FunctionalExtensionality.
From Verif Require Import Cx Arr Spec_circuit Model_coupling Model_forward Model_rect Model_vector Model_meshops Model_envelope Spec_mesh Spec_meshops
  Proof_node Proof_mesh Proof_forward Proof_forward2 Proof_forward4 Proof_vector Proof_rect6 Proof_nbasis Proof_nbasis4 Proof_meshops Proof_meshops2.
Import ListNotations.
Local Open Scope R_scope.

Lemma Csum_cut : forall n m f, (forall k, (n <= k < m)%nat -> f k = C0) -> (n <= m)%nat -> Csum m f = Csum n f.
Proof.
  intros n m f H L. replace m with (n + (m - n))%nat by lia. rewrite Csum_split.
  replace (Csum (m - n) (fun i => f (n + i)%nat)) with C0; [ring |]. symmetry.
  assert (E : forall q, (forall i, (i < q)%nat -> f (n + i)%nat = C0) -> Csum q (fun i => f (n + i)%nat) = C0).
  { induction q as [| q IH]; intros HH; [reflexivity |]. cbn. rewrite IH by (intros; apply HH; lia). rewrite HH by lia. ring. }
  apply E. intros; apply H; lia.
Qed.
Lemma psvd_ok : forall svd m n a, (2 <= m)%nat -> (2 <= n)%nat -> svd_mn m n a (svd m n a) ->
  exists ml pl d mr pr, psvd svd m n a = Some ((ml, pl), d, (mr, pr)) /\ wf_mesh ml /\ wf_mesh mr /\ n_rails ml = m /\ n_rails mr = n /\
   (forall k, (k < Nat.min m n)%nat -> 0 <= d k) /\ (forall k, (S k < Nat.min m n)%nat -> d (S k) <= d k) /\
   forall x, exists y z, matrix_fn mr false pr x = Some y /\
     matrix_fn ml false pl (fun k => if Nat.ltb k (Nat.min m n) then (RtoC (d k) * y k)%C else C0) = Some z /\
     forall i, (i < m)%nat -> z i = Csum n (fun j => a i j * x j)%C.
Proof.
  intros svd m n a Hm Hn H. unfold psvd. destruct (svd m n a) as [[l d] r]. destruct H as (Ul & Ur & Dp & Ds & EA).
  destruct (rectangular_geometry m l Hm) as (ml & pl & El & _ & Rl & _ & _ & _ & _ & _ & Wl).
  destruct (rectangular_geometry n r Hn) as (mr & pr & Er & _ & Rr & _ & _ & _ & _ & _ & Wr).
  rewrite El, Er. exists ml, pl, d, mr, pr. split; [reflexivity |]. split; [exact Wl |]. split; [exact Wr |]. split; [exact Rl |]. split; [exact Rr |].
  split; [exact Dp |]. split; [exact Ds |]. intros x.
  pose proof (matrix_both mr false pr x Wr) as Y. cbv iota in Y. set (y := apply_gammas _ _) in Y. exists y.
  set (w := fun k => if Nat.ltb k (Nat.min m n) then (RtoC (d k) * y k)%C else C0).
  pose proof (matrix_both ml false pl w Wl) as Zz. cbv iota in Zz. set (z := apply_gammas (gammas pl) _) in Zz. exists z. split; [exact Y |]. split; [exact Zz |].
  destruct (mesh_matrix_vec mr false pr x y (proj1 Wr) Y) as (U1 & M1 & V1). destruct (mesh_matrix_vec ml false pl w z (proj1 Wl) Zz) as (U2 & M2 & V2).
  rewrite Rr in V1. rewrite Rl in V2.
  assert (X1 : forall i j, (i < n)%nat -> (j < n)%nat -> U1 i j = r i j).
  { intros i j Hi Hj. pose proof (rectangular_entry n r mr pr Hn Ur Er i j Hi Hj) as Q. rewrite M1 in Q. congruence. }
  assert (X2 : forall i j, (i < m)%nat -> (j < m)%nat -> U2 i j = l i j).
  { intros i j Hi Hj. pose proof (rectangular_entry m l ml pl Hm Ul El i j Hi Hj) as Q. rewrite M2 in Q. congruence. }
  intros i Hi. rewrite (V2 i Hi). unfold app.
  rewrite (Csum_cut (Nat.min m n) m); [| intros k Hk; unfold w; destruct (Nat.ltb_spec k (Nat.min m n)); [lia | ring] | apply Nat.le_min_l].
  transitivity (Csum (Nat.min m n) (fun k => Csum n (fun j => l i k * RtoC (d k) * r k j * x j)%C)).
  - apply Csum_ext. intros k Hk. unfold w. destruct (Nat.ltb_spec k (Nat.min m n)); [| lia]. rewrite X2 by lia. rewrite (V1 k) by lia. unfold app.
    rewrite <- !Csum_scal. apply Csum_ext. intros j Hj. rewrite X1 by lia. ring.
  - rewrite Csum_swap. apply Csum_ext. intros j Hj. rewrite EA by assumption. rewrite <- Csum_scal_r. reflexivity.
Qed.
Lemma psvd_one : forall svd m n a, m = 1%nat \/ n = 1%nat -> psvd svd m n a = None.
Proof.
  intros svd m n a H. unfold psvd. destruct (svd m n a) as [[l d] r]. destruct H as [-> | ->]; rewrite rectangular_one; [reflexivity |].
  destruct (rectangular m l); reflexivity.
Qed.

(** ** elements *)
Lemma elements_given : forall m p back ts fs, mesh_parallel_mzi m p (Some ts) (Some fs) None back = mzis m back (mkParams ts fs (gammas p)).
Proof. reflexivity. Qed.
Lemma elements_same_only : forall m p back, (forall k, phis p k = thetas p k) -> mesh_parallel_mzi m p None None None back = mzis m back p.
Proof. intros m p back H. apply functional_extensionality; intros k. unfold mesh_parallel_mzi, mzis. rewrite H. reflexivity. Qed.
Lemma elements_default_wrong : exists p, mesh_parallel_mzi (mesh1 TOP (0, 0) (0, 0)) p None None None false 0%nat <> mzis (mesh1 TOP (0, 0) (0, 0)) false p 0%nat.
Proof.
  exists (mkParams (fun _ => PI) (fun _ => 0) (fun _ => 0)). intros E. apply (f_equal t11) in E.
  unfold mesh_parallel_mzi, mzis, err_at, loss_at in E. cbn [mesh1 style bs_errors losses nth thetas phis] in E. cbn [parallel_mzi mzi_terms t11 fst snd] in E.
  replace (ln 10 * 0 / 20) with 0 in E by field. rewrite !Cexp_imag in E. rewrite !Rplus_0_r in E. rewrite sin_PI4, cos_PI4 in E.
  apply (f_equal re) in E. cbn in E. rewrite cos_PI, sin_PI, cos_0, sin_0 in E.
  assert (Q : 1 / sqrt 2 * (1 / sqrt 2) = / 2). { assert (sqrt 2 <> 0) by (apply Rgt_not_eq, sqrt_lt_R0; lra). replace (1 / sqrt 2 * (1 / sqrt 2)) with (/ (sqrt 2 * sqrt 2)) by (field; assumption). rewrite sqrt_sqrt by lra. reflexivity. }
  rewrite ?Q in E. lra.
Qed.

(** ** phases *)
Lemma phases_ok : forall p e c g d dg i, thetas (phases p e c g d dg) i - thetas p i = (if c then e else e * d i) /\
  phis (phases p e c g d dg) i - phis p i = (if c then e else e * d i) /\
  gammas (phases p e c g d dg) i - gammas p i = (if g then (if c then e else e * dg i) else 0).
Proof. intros. unfold phases. cbn. destruct c, g; repeat split; ring. Qed.

(** ** arrays *)
Lemma hwrite_eq : forall h a x, hwrite h a x a = x. Proof. intros; unfold hwrite; rewrite Nat.eqb_refl; reflexivity. Qed.
Lemma hwrite_ne : forall h a b x, b <> a -> hwrite h a x b = h b. Proof. intros; unfold hwrite. destruct (Nat.eqb_spec b a); [contradiction | reflexivity]. Qed.
Definition below (next : nat) (r : prefs) : Prop := (r_thetas r < next /\ r_phis r < next /\ r_gammas r < next)%nat.
Lemma getter_copies : forall h next r h' next' c, (r_thetas r < next /\ r_phis r < next /\ r_gammas r < next)%nat -> get_params h next r = (h', next', c) ->
  deref h' c = deref h r /\ deref h' r = deref h r /\
  (forall a x, a = r_thetas c \/ a = r_phis c \/ a = r_gammas c -> deref (hwrite h' a x) r = deref h r) /\
  (forall p, deref (program_inplace h' r p) c = deref h r) /\ (forall p, deref (program_inplace h' c p) r = deref h r).
Proof.
  intros h next r h' next' c (B1 & B2 & B3) E. unfold get_params in E. injection E as E1 E2 E3. subst h' next' c.
  unfold deref, program_inplace. cbn [r_thetas r_phis r_gammas].
  repeat split; intros; unfold deref, program_inplace in *; cbn [r_thetas r_phis r_gammas] in *;
    repeat (rewrite hwrite_eq || rewrite hwrite_ne by (intuition lia)); reflexivity.
Qed.
Lemma setter_aliases : forall h r c x, thetas (deref (hwrite h (r_thetas c) x) (set_params r c)) = x /\
  phis (deref (hwrite h (r_phis c) x) (set_params r c)) = x /\ gammas (deref (hwrite h (r_gammas c) x) (set_params r c)) = x.
Proof. intros. unfold deref, set_params. cbn [thetas phis gammas]. rewrite !hwrite_eq. auto. Qed.
Lemma shared_program : forall h r1 r2 c p, r_thetas c <> r_phis c -> 
  thetas (deref (program_inplace h (set_params r1 c) p) (set_params r2 c)) = thetas p /\ phis (deref (program_inplace h (set_params r1 c) p) (set_params r2 c)) = phis p.
Proof. intros. unfold deref, set_params, program_inplace. cbn [thetas phis]. rewrite hwrite_eq, hwrite_ne, hwrite_eq by congruence. auto. Qed.
Lemma layer_init : forall h next r z h' next' rm rl, (r_thetas r < next /\ r_phis r < next /\ r_gammas r < next)%nat ->
  insitu_layer_init h next r z = (h', next', rm, rl) ->
  thetas (deref h' rm) = thetas (deref h r) /\ phis (deref h' rm) = phis (deref h r) /\
  gammas (deref h' rm) = (if z then fun _ => 0 else gammas (deref h r)) /\ deref h' rl = deref h' rm /\ deref h' r = deref h r.
Proof.
  intros h next r z h' next' rm rl (B1 & B2 & B3) E. unfold insitu_layer_init in E. destruct z; cbn in E; injection E as E1 E2 E3 E4; subst h' next' rm rl;
    unfold deref; cbn [r_thetas r_phis r_gammas thetas phis gammas]; repeat (rewrite hwrite_eq || rewrite hwrite_ne by (intuition lia)); auto.
Qed.
