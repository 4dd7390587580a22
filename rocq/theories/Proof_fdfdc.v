(** Proofs for C164 (1): the operators with a complex permittivity as difference equations. *)
From Coq Require Import Reals List Arith ZArith Lra Lia Bool.
From Verif Require Import Cx Arr Model_coupling Model_yee Spec_yee Proof_yee Proof_yee2 Proof_yee3 Model_fdfd Spec_fdfd Proof_fdfd Proof_fdfd6 Model_fdfdc Spec_fdfdc.
Local Open Scope R_scope.

Lemma eps_at_ok : forall s eps c i j k, in_grid s i j k -> yee_avg_c s eps c i j k = eps_at s eps c i j k.
Proof.
  intros s eps c i j k (Hi & Hj & Hk). unfold eps_at, yee_avg_c, avg_c, roll_p1, along, pred_p.
  destruct c; rewrite !prv_lt by auto; try reflexivity.
  apply C_eq; unfold Cdiv, Cinv, Cn2; cbn [re im RtoC Csub Cmul Cadd Copp]; field.
Qed.
Lemma diagc_apply : forall s x v i j k, in_grid s i j k ->
  matvec (npix s) (diagc s x) v (ridx s i j k) = (x i j k * v (ridx s i j k))%C.
Proof.
  intros s x v i j k H. pose proof H as (Hi & Hj & Hk). unfold matvec, diagc.
  rewrite (Csum_single (npix s) _ (ridx s i j k)).
  2:{ apply ridx_bound; auto. }
  2:{ intros q _ Hq. destruct (Nat.eqb_spec (ridx s i j k) q); [congruence | ring]. }
  rewrite Nat.eqb_refl, ravel_ridx by auto. reflexivity.
Qed.
Section D.
Variable d : cfdfd.
Let s := cf_shape d.
Let n := npix s.
Definition real0 : fdfd := mkFdfd (cf_shape d) (cf_dxf d) (cf_dxb d) (cf_bloch d) (cf_k0 d) (fun _ _ _ _ => 0).
Lemma mat3c_apply : forall v c i j k, in_grid s i j k -> bmatvec n (mat3c d) v c (ridx s i j k) =
  (curl_of (dminus d) (curl_of (dplus d) (fun a => unravel s (v a))) c i j k
   - RtoC (cf_k0 d * cf_k0 d) * eps_at s (cf_eps d) c i j k * v c (ridx s i j k))%C.
Proof.
  intros v c i j k H.
  assert (E0 : bmatvec n (mat3 real0) v c (ridx s i j k) = (bmatvec n (bmatmul n (d2curl_op (cdb d)) (d2curl_op (cdf d))) v c (ridx s i j k)
     - RtoC (cf_k0 d * cf_k0 d) * matvec n (diagm s (fun _ _ _ => 0)) (v c) (ridx s i j k))%C).
  { unfold bmatvec, mat3. rewrite !matvec_sub_m. fold (matvec (dn real0)). change (dn real0) with n. cbn [d_k0 d_shape d_eps real0]. fold s.
    destruct c; cbn [axis_eqb]; rewrite !matvec_zero, !matvec_scal_m;
      change (db_ real0) with (cdb d); change (df_ real0) with (cdf d); ring. }
  assert (E1 : bmatvec n (mat3c d) v c (ridx s i j k) = (bmatvec n (bmatmul n (d2curl_op (cdb d)) (d2curl_op (cdf d))) v c (ridx s i j k)
     - RtoC (cf_k0 d * cf_k0 d) * matvec n (diagc s (cf_eps_t d c)) (v c) (ridx s i j k))%C).
  { unfold bmatvec, mat3c. rewrite !matvec_sub_m. fold s. change (cf_n d) with n.
    destruct c; cbn [axis_eqb]; rewrite !matvec_zero, !matvec_scal_m; ring. }
  pose proof (diagc_apply s (cf_eps_t d c) (v c) i j k H) as ED. fold n in ED. rewrite ED in E1. clear ED. unfold cf_eps_t in E1. fold s in E1. rewrite eps_at_ok in E1 by auto. rewrite E1. clear E1.
  pose proof (mat3_apply real0 v c i j k H) as E2. change (dn real0) with n in E2. change (d_shape real0) with s in E2. rewrite E0 in E2. clear E0.
  pose proof (diagm_apply s (fun _ _ _ => 0) (v c) i j k H) as ED. fold n in ED. rewrite ED in E2. clear ED. cbn [d_k0 d_eps d_dxb d_dxf d_bloch real0] in E2.
  match goal with |- (?P - _)%C = (?Q - _)%C => assert (EP : P = Q) end; [| rewrite EP; ring].
  assert (Z : forall x y : C, x = (y - RtoC (cf_k0 d * cf_k0 d) * (RtoC 0 * v c (ridx s i j k)) + RtoC (cf_k0 d * cf_k0 d) * (RtoC 0 * v c (ridx s i j k)))%C -> x = y) by (intros x y ->; ring).
  apply Z. etransitivity; [| apply (f_equal (fun z => z + RtoC (cf_k0 d * cf_k0 d) * (RtoC 0 * v c (ridx s i j k)))%C); exact E2]. ring.
Qed.
Lemma mat_ez_c_apply : forall v i j k, in_grid s i j k -> matvec n (mat_ez_c d) v (ridx s i j k) =
  (- dminus d (dplus d (unravel s v) AX) AX i j k - dminus d (dplus d (unravel s v) AY) AY i j k
   - RtoC (cf_k0 d * cf_k0 d) * eps_at s (cf_eps d) AZ i j k * v (ridx s i j k))%C.
Proof.
  intros v i j k H. unfold mat_ez_c. rewrite !matvec_sub_m, matvec_opp, matvec_scal_m. unfold cf_n, cdb, cdf. fold s. unfold n.
  rewrite diagc_apply by auto.
  change (fun x y => matmul (npix s) ?A ?B x y) with (matmul (npix s) A B).
  rewrite !deriv2_apply by auto. unfold cf_eps_t. fold s. rewrite eps_at_ok by auto. unfold dminus, dplus, quot. fold s. ring.
Qed.
Lemma deriv2c_apply : forall dx dx' bl o o' a b t v i j k, in_grid s i j k ->
  matvec (npix s) (matmul (npix s) (matmul (npix s) (deriv s dx bl o a) (diagc s t)) (deriv s dx' bl o' b)) v (ridx s i j k) =
  quot s dx bl o a (fun i j k => t i j k * quot s dx' bl o' b (unravel s v) i j k)%C i j k.
Proof.
  intros. rewrite !matvec_matmul, deriv_unravel by auto. apply quot_ext; auto. intros.
  unfold unravel at 1. rewrite diagc_apply by auto. f_equal. apply deriv_unravel; auto.
Qed.
Lemma mat_hz_c_apply : forall v i j k, in_grid s i j k -> matvec n (mat_hz_c d) v (ridx s i j k) =
  (- dminus d (fun i j k => dplus d (unravel s v) AX i j k / eps_at s (cf_eps d) AY i j k) AX i j k
   - dminus d (fun i j k => dplus d (unravel s v) AY i j k / eps_at s (cf_eps d) AX i j k) AY i j k
   - RtoC (cf_k0 d * cf_k0 d) * v (ridx s i j k))%C.
Proof.
  intros v i j k H. unfold mat_hz_c. rewrite !matvec_sub_m, matvec_opp, matvec_scal_m. unfold cf_n, cdb, cdf. fold s. unfold n.
  change (fun x y => matmul (npix s) ?A ?B x y) with (matmul (npix s) A B).
  rewrite !deriv2c_apply by auto. pose proof H as (Hi & Hj & Hk). rewrite matvec_eye by (apply ridx_bound; auto).
  assert (Q : forall a c, quot s (cf_dxb d) (cf_bloch d) true a (fun i j k => inv_c (cf_eps_t d c) i j k * quot s (cf_dxf d) (cf_bloch d) false a (unravel s v) i j k)%C i j k =
    dminus d (fun i j k => dplus d (unravel s v) a i j k / eps_at s (cf_eps d) c i j k)%C a i j k).
  { intros a c. unfold dminus. fold s. change (bwd_quot s (cf_dxb d) (cf_bloch d) a) with (quot s (cf_dxb d) (cf_bloch d) true a).
    apply quot_ext; auto. intros x y z Hx. unfold inv_c, cf_eps_t. fold s. rewrite eps_at_ok by auto. unfold dplus, quot, Cdiv. fold s. ring. }
  rewrite !Q. ring.
Qed.
(** ** Sums over cells and over raveled vectors. *)
Lemma Csum_npix : forall v, Csum n v = grid_sum s (fun i j k => v (ridx s i j k)).
Proof.
  intros v. unfold n, npix, grid_sum. rewrite Csum_prod.
  transitivity (Csum (s AX * s AY) (fun p => Csum (s AZ) (fun k => v (p * s AZ + k)%nat))); [reflexivity |].
  rewrite Csum_prod. apply Csum_ext; intros i _. apply Csum_ext; intros j _. apply Csum_ext; intros k _. reflexivity.
Qed.
Lemma vdot_inner : forall u v, vdot n u v = inner s (unravel s u) (unravel s v).
Proof. intros u v. unfold vdot. rewrite Csum_npix. reflexivity. Qed.
Lemma inner_ext : forall f g f' g', same_on s f f' -> same_on s g g' -> inner s f g = inner s f' g'.
Proof. intros f g f' g' Hf Hg. unfold inner. apply grid_sum_ext. intros i j k H. rewrite Hf, Hg by auto. reflexivity. Qed.
End D.
Lemma quot_adjoint : forall s h bl a f g, inner s (bwd_quot s (uniform_dx h) bl a f) g = (- inner s f (fwd_quot s (uniform_dx h) bl a g))%C.
Proof.
  intros s h bl a f g. set (d := mkCfdfd s (uniform_dx h) (uniform_dx h) bl 1 (fun _ _ _ => C1)).
  pose proof (deriv_adjoint s h bl a (ravel s f) (ravel s g)) as E.
  rewrite (vdot_inner d), (vdot_inner d) in E. cbn [cf_shape d] in E.
  rewrite (inner_ext d (unravel s (matvec (npix s) (deriv s (uniform_dx h) bl true a) (ravel s f))) _ (bwd_quot s (uniform_dx h) bl a f) g) in E.
  2:{ intros i j k H. unfold unravel at 1. rewrite deriv_unravel by auto. change (bwd_quot s (uniform_dx h) bl a) with (quot s (uniform_dx h) bl true a). apply quot_ext; auto. intros. apply unravel_ravel; auto. }
  2:{ intros i j k H. apply unravel_ravel; auto. }
  rewrite (inner_ext d _ (unravel s (matvec (npix s) (deriv s (uniform_dx h) bl false a) (ravel s g))) f (fwd_quot s (uniform_dx h) bl a g)) in E.
  2:{ intros i j k H. apply unravel_ravel; auto. }
  2:{ intros i j k H. unfold unravel at 1. rewrite deriv_unravel by auto. change (fwd_quot s (uniform_dx h) bl a) with (quot s (uniform_dx h) bl false a). apply quot_ext; auto. intros. apply unravel_ravel; auto. }
  exact E.
Qed.
