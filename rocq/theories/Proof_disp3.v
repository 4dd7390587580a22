(** The FDFD matrices and the unit of length. *)
From Coq Require Import Reals Lra Lia List Arith Bool FunctionalExtensionality.
From Verif Require Import Cx Arr Model_coupling Model_yee Spec_yee Proof_yee Proof_yee2 Model_fdfd Proof_fdfd Spec_fdtd Spec_disp.
Import ListNotations.
Local Open Scope R_scope.

Section Enlarge.
Variables (d : fdfd) (u : R).
Hypothesis Hu : u <> 0.
Let v := RtoC (/ u).
Lemma Cinv_scaled : forall z, Cinv (RtoC u * z) = (v * Cinv z)%C.
Proof.
  intro z. unfold v. destruct (Req_dec (Cn2 z) 0) as [E | E].
  - assert (Z : z = C0) by (apply Cn2_zero_iff; auto). rewrite Z. replace (RtoC u * C0)%C with C0 by ring.
    apply C_eq; unfold Cinv, Cn2, Rdiv; cbn [re im RtoC Cmul C0]; ring.
  - rewrite RtoC_inv by auto. field. split; [intro Z; apply E; rewrite Z; unfold Cn2; cbn; ring | apply RtoC_neq0; auto].
Qed.
Lemma deriv_scaled : forall s dx bl o a r c, deriv s (fun a n => RtoC u * dx a n)%C bl o a r c = (v * deriv s dx bl o a r c)%C.
Proof. intros. unfold deriv, ravel. rewrite Cinv_scaled. ring. Qed.
Lemma matmul_scaled2 : forall n (A B A' B' : mat) x y, (forall x y, A' x y = v * A x y)%C -> (forall x y, B' x y = v * B x y)%C ->
  matmul n A' B' x y = (v * v * matmul n A B x y)%C.
Proof.
  intros. unfold matmul. rewrite <- Csum_scal. apply Csum_ext. intros i _. rewrite H, H0. ring.
Qed.
Lemma vv : (v * v)%C = RtoC (/ (u * u)). Proof. unfold v. rewrite <- RtoC_mul. f_equal. field. auto. Qed.
Let d' := enlarged u d.
Lemma df_scaled : forall a r c, df_ d' a r c = (v * df_ d a r c)%C. Proof. intros. unfold df_, d', enlarged. cbn [d_shape d_dxf d_bloch]. apply deriv_scaled. Qed.
Lemma db_scaled : forall a r c, db_ d' a r c = (v * db_ d a r c)%C. Proof. intros. unfold db_, d', enlarged. cbn [d_shape d_dxb d_bloch]. apply deriv_scaled. Qed.
Lemma k0_scaled : forall w, (RtoC (d_k0 d' * d_k0 d') * w)%C = (v * v * (RtoC (d_k0 d * d_k0 d) * w))%C.
Proof. intro w. rewrite vv. unfold d', enlarged. cbn [d_k0]. replace (d_k0 d / u * (d_k0 d / u)) with (/ (u * u) * (d_k0 d * d_k0 d)) by (field; auto). rewrite RtoC_mul. ring. Qed.
Lemma curl_blocks : forall o r c x y, d2curl_op (if o : bool then db_ d' else df_ d') r c x y = (v * d2curl_op (if o then db_ d else df_ d) r c x y)%C.
Proof. intros. unfold d2curl_op. destruct o, r, c; cbv iota; rewrite ?df_scaled, ?db_scaled; ring. Qed.
Lemma mat3_scaled : forall r c x y, mat3 d' r c x y = (RtoC (/ (u * u)) * mat3 d r c x y)%C.
Proof.
  intros. rewrite <- vv. unfold mat3, bmatmul. change (dn d') with (dn d). change (d_shape d') with (d_shape d). change (d_eps d') with (d_eps d).
  assert (Q : forall b, matmul (dn d) (d2curl_op (db_ d') r b) (d2curl_op (df_ d') b c) x y = (v * v * matmul (dn d) (d2curl_op (db_ d) r b) (d2curl_op (df_ d) b c) x y)%C).
  { intro b. apply matmul_scaled2; intros; [apply (curl_blocks true) | apply (curl_blocks false)]. }
  rewrite !Q. destruct (axis_eqb r c); rewrite ?k0_scaled; ring.
Qed.
Lemma mat_ez_scaled : forall x y, mat_ez d' x y = (RtoC (/ (u * u)) * mat_ez d x y)%C.
Proof.
  intros. rewrite <- vv. unfold mat_ez, ddz. change (dn d') with (dn d). change (d_shape d') with (d_shape d). change (d_eps d') with (d_eps d).
  assert (Q : forall b, matmul (dn d) (db_ d' b) (df_ d' b) x y = (v * v * matmul (dn d) (db_ d b) (df_ d b) x y)%C).
  { intro b. apply matmul_scaled2; intros; [apply db_scaled | apply df_scaled]. }
  rewrite !Q, k0_scaled. ring.
Qed.
Lemma matmul_scaled1 : forall n (A B A' : mat) x y, (forall x y, A' x y = v * A x y)%C -> matmul n A' B x y = (v * matmul n A B x y)%C.
Proof. intros. unfold matmul. rewrite <- Csum_scal. apply Csum_ext. intros i _. rewrite H. ring. Qed.
Lemma mat_hz_scaled : forall x y, mat_hz d' x y = (RtoC (/ (u * u)) * mat_hz d x y)%C.
Proof.
  intros. rewrite <- vv. unfold mat_hz. change (dn d') with (dn d). change (d_shape d') with (d_shape d). change (d_eps d') with (d_eps d).
  assert (Q : forall b D, matmul (dn d) (matmul (dn d) (db_ d' b) D) (df_ d' b) x y = (v * v * matmul (dn d) (matmul (dn d) (db_ d b) D) (df_ d b) x y)%C).
  { intros b D. apply matmul_scaled2; intros; [apply matmul_scaled1; intros; apply db_scaled | apply df_scaled]. }
  rewrite !Q, k0_scaled. ring.
Qed.
End Enlarge.
Lemma fdfd_scaled : forall d u x y, u <> 0 ->
  (forall r c, mat3 (enlarged u d) r c x y = RtoC (/ (u * u)) * mat3 d r c x y)%C /\
  (mat_ez (enlarged u d) x y = RtoC (/ (u * u)) * mat_ez d x y)%C /\ (mat_hz (enlarged u d) x y = RtoC (/ (u * u)) * mat_hz d x y)%C.
Proof. intros d u x y Hu. split; [| split]; intros; [apply mat3_scaled | apply mat_ez_scaled | apply mat_hz_scaled]; auto. Qed.

