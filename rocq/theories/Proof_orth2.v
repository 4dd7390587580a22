(** The range of the propagation constants; one-dimensional modes; evolving superpositions. *)
From Coq Require Import Reals List Arith ZArith Lra Lia Bool.
From Verif Require Import Cx Arr Model_coupling Model_yee Spec_yee Proof_yee Proof_yee2 Proof_yee3 Model_fdfd Spec_fdfd Proof_fdfd Proof_fdfd2 Model_grid Model_mode Spec_mode Proof_mode Proof_mode2 Spec_orth Proof_orth.
Import ListNotations.
Local Open Scope R_scope.

Lemma grid_re_nonneg : forall s F, (forall i j k, in_grid s i j k -> 0 <= re (F i j k)) -> 0 <= re (grid_sum s F).
Proof.
  intros s F H. unfold grid_sum. rewrite re_Csum. apply Rsum_nonneg; intros i Hi. rewrite re_Csum. apply Rsum_nonneg; intros j Hj.
  rewrite re_Csum. apply Rsum_nonneg; intros k Hk. apply H. repeat split; auto.
Qed.
Lemma grid_re_le : forall s F G, (forall i j k, in_grid s i j k -> re (F i j k) <= re (G i j k)) -> re (grid_sum s F) <= re (grid_sum s G).
Proof.
  intros s F G H. pose proof (grid_re_nonneg s (fun i j k => G i j k - F i j k)%C) as P.
  rewrite grid_sum_sub in P. cbn in P. assert (0 <= re (grid_sum s G) + - re (grid_sum s F)); [| lra].
  apply P. intros i j k Hin. pose proof (H i j k Hin). lra.
Qed.
Lemma inner_re_nonneg : forall s f, 0 <= re (inner s f f).
Proof. intros. apply grid_re_nonneg. intros. cbn. nra. Qed.
Lemma inner_re_pos : forall s f i j k, in_grid s i j k -> f i j k <> C0 -> 0 < re (inner s f f).
Proof.
  intros s f i j k (Hi & Hj & Hk) Hf. pose proof (inner_re_nonneg s f) as [P | P]; auto. exfalso. apply Hf.
  unfold inner, grid_sum in P. rewrite re_Csum in P. symmetry in P.
  assert (N : forall i j k, 0 <= re (f i j k * Cconj (f i j k))%C) by (intros; cbn; nra).
  assert (N1 : forall i j n, 0 <= re (Csum n (fun k => f i j k * Cconj (f i j k))%C)) by (intros; rewrite re_Csum; apply Rsum_nonneg; auto).
  assert (N2 : forall i n m, 0 <= re (Csum n (fun j => Csum m (fun k => f i j k * Cconj (f i j k))%C))) by (intros; rewrite re_Csum; apply Rsum_nonneg; auto).
  assert (P1 := Rsum_zero_terms _ _ (fun i _ => N2 i _ _) P i Hi). cbn beta in P1. rewrite re_Csum in P1.
  assert (P2 := Rsum_zero_terms _ _ (fun j _ => N1 i j _) P1 j Hj). cbn beta in P2. rewrite re_Csum in P2.
  assert (P3 := Rsum_zero_terms _ _ (fun k _ => N i j k) P2 k Hk). cbn in P3. apply C_eq; cbn; nra.
Qed.
Lemma vdot_inner : forall s u v, vdot (npix s) u v = inner s (unravel s u) (unravel s v).
Proof.
  intros. unfold vdot, inner, grid_sum, npix. rewrite Csum_prod, Csum_prod. reflexivity.
Qed.

Section OneD.
Variable q : mode_solver.
Notation s := (q_shape q).
Notation F a f := (diff_fn (q_shape q) (q_dx q) false f a).
Notation B a f := (diff_fn (q_shape q) (q_dx q) true f a).
Lemma eig1_form : forall lam v, eigen1 q lam v -> forall i j k, in_grid s i j k ->
  (RtoC (q_k0 q * q_k0 q) * (RtoC (q_eps q i j k) * unravel s v i j k) + F AX (B AX (unravel s v)) i j k)%C = (lam * unravel s v i j k)%C.
Proof. intros lam v H i j k Hin. rewrite <- wg1_apply by auto. apply H. apply ridx_bound; auto. Qed.
Lemma eig1_id : forall lam v w, eigen1 q lam v ->
  (lam * inner s (unravel s v) (unravel s w))%C =
  (RtoC (q_k0 q * q_k0 q) * inner s (fun i j k => RtoC (q_eps q i j k) * unravel s v i j k)%C (unravel s w) - inner s (B AX (unravel s v)) (B AX (unravel s w)))%C.
Proof.
  intros lam v w H. rewrite <- inner_scal_l.
  rewrite (inner_ext s (fun i j k => lam * unravel s v i j k)%C (unravel s w) (fun i j k => RtoC (q_k0 q * q_k0 q) * (RtoC (q_eps q i j k) * unravel s v i j k) + F AX (B AX (unravel s v)) i j k)%C (unravel s w)); auto;
    [| intros; rewrite eig1_form with (lam := lam) by auto; reflexivity].
  rewrite (inner_add_l s (fun i j k => RtoC (q_k0 q * q_k0 q) * (RtoC (q_eps q i j k) * unravel s v i j k))%C (F AX (B AX (unravel s v)))).
  rewrite (inner_scal_l s (RtoC (q_k0 q * q_k0 q)) (fun i j k => RtoC (q_eps q i j k) * unravel s v i j k)%C).
  unfold q_dx. rewrite diff_adjoint. ring.
Qed.
Lemma eig1_sym : forall lam1 v1 lam2 v2, eigen1 q lam1 v1 -> eigen1 q lam2 v2 ->
  (lam1 * vdot (q_n q) v1 v2)%C = (Cconj lam2 * vdot (q_n q) v1 v2)%C.
Proof.
  intros lam1 v1 lam2 v2 H1 H2. unfold q_n. rewrite vdot_inner. rewrite eig1_id by auto.
  pose proof (eig1_id lam2 v2 v1 H2) as P. apply (f_equal Cconj) in P. rewrite Cconj_mul, <- inner_conj in P. rewrite P.
  rewrite Cconj_sub, Cconj_mul, <- !inner_conj. f_equal. f_equal; [apply C_eq; cbn; ring |].
  unfold inner. apply grid_sum_ext; intros. rewrite Cconj_mul. replace (Cconj (RtoC (q_eps q i j k))) with (RtoC (q_eps q i j k)) by (apply C_eq; cbn; ring). ring.
Qed.
Lemma modes1_orth : forall lam1 v1 lam2 v2, eigen1 q (RtoC lam1) v1 -> eigen1 q (RtoC lam2) v2 -> lam1 <> lam2 -> vdot (q_n q) v1 v2 = C0.
Proof.
  intros lam1 v1 lam2 v2 H1 H2 Hd. pose proof (eig1_sym _ _ _ _ H1 H2) as P.
  replace (Cconj (RtoC lam2)) with (RtoC lam2) in P by (apply C_eq; cbn; ring).
  apply (Cmul_cancel' (RtoC (lam1 - lam2))); [apply RtoC_neq0; lra |].
  replace (RtoC (lam1 - lam2)) with (RtoC lam1 - RtoC lam2)%C by (apply C_eq; cbn; ring).
  transitivity (RtoC lam1 * vdot (q_n q) v1 v2 - RtoC lam2 * vdot (q_n q) v1 v2)%C; [ring |]. rewrite P. ring.
Qed.
Lemma nonzero_pos : forall v, nonzero (q_n q) v -> 0 < re (inner s (unravel s v) (unravel s v)).
Proof.
  intros v (r & Hr & Hv). unfold q_n in Hr. destruct (ridx_inv s r Hr) as (i & j & k & H & ->). exact (inner_re_pos s (unravel s v) i j k H Hv).
Qed.
Lemma inner_im0 : forall f, im (inner s f f) = 0.
Proof. intros. pose proof (f_equal im (inner_conj s f f)) as P. cbn in P. lra. Qed.
Lemma modes1_real : forall lam v, eigen1 q lam v -> nonzero (q_n q) v -> im lam = 0.
Proof.
  intros lam v H Hv. pose proof (eig1_sym _ _ _ _ H H) as P. unfold q_n in P. rewrite vdot_inner in P.
  apply nonzero_pos in Hv. apply (f_equal im) in P. cbn in P. rewrite inner_im0 in P. nra.
Qed.
Lemma modes1_bound : forall M lam v, eps_below q M -> eigen1 q lam v -> nonzero (q_n q) v -> re lam <= q_k0 q * q_k0 q * M.
Proof.
  intros M lam v HM H Hv. pose proof (eig1_id lam v v H) as P. apply nonzero_pos in Hv. pose proof (modes1_real lam v H) as Hi.
  apply (f_equal re) in P. cbn [re im Cmul Csub Copp Cadd RtoC] in P. rewrite inner_im0 in P.
  pose proof (inner_re_nonneg s (B AX (unravel s v))) as N.
  assert (L : re (inner s (fun i j k => RtoC (q_eps q i j k) * unravel s v i j k)%C (unravel s v)) <= re (RtoC M * inner s (unravel s v) (unravel s v))%C).
  { rewrite <- inner_scal_l. apply grid_re_le. intros i j k Hin. pose proof (HM i j k Hin). cbn. set (x := re (unravel s v i j k)). set (y := im (unravel s v i j k)). nra. }
  cbn in L. rewrite inner_im0 in L.
  set (N2 := re (inner s (unravel s v) (unravel s v))) in *. set (W := re (inner s (fun i j k => RtoC (q_eps q i j k) * unravel s v i j k)%C (unravel s v))) in *.
  assert (q_k0 q * q_k0 q * W <= q_k0 q * q_k0 q * (M * N2)) by (apply Rmult_le_compat_l; [nra | lra]).
  apply Rmult_le_reg_r with N2; [exact Hv |]. cbn in P. unfold q_dx in *. nra.
Qed.
End OneD.
