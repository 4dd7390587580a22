(** Proofs for C164 (4): real permittivities, a lossless system without solution, an instance. *)
From Coq Require Import Reals List Arith ZArith Lra Lia Bool.
From Verif Require Import Cx Arr Model_coupling Model_yee Spec_yee Proof_yee Proof_yee2 Proof_yee3 Model_fdfd Spec_fdfd Spec_fdtd Proof_fdfd Proof_fdfd2 Model_fdfdc Spec_fdfdc Proof_fdfdc Proof_fdfdc3.
Local Open Scope R_scope.

Lemma yee_avg_c_real : forall s p c i j k, yee_avg_c s (fun i j k => RtoC (p i j k)) c i j k = RtoC (yee_avg s p c i j k).
Proof.
  intros s p c i j k. unfold yee_avg_c, yee_avg, avg_c, avg_axis, roll_p1, along, ralong.
  destruct c; apply C_eq; unfold Cdiv, Cinv, Cn2; cbn [re im RtoC Cmul Cadd]; field.
Qed.
Definition real_of (d : cfdfd) (p : rfld) : fdfd := mkFdfd (cf_shape d) (cf_dxf d) (cf_dxb d) (cf_bloch d) (cf_k0 d) (yee_avg (cf_shape d) p).
Lemma real_matrices : forall s dxf dxb bl k0 p,
  let d := mkCfdfd s dxf dxb bl k0 (fun i j k => RtoC (p i j k)) in let d' := mkFdfd s dxf dxb bl k0 (yee_avg s p) in
  (forall a b r c, mat3c d a b r c = mat3 d' a b r c) /\ (forall r c, mat_ez_c d r c = mat_ez d' r c) /\
  ((forall c i j k, yee_avg s p c i j k <> 0) -> forall r c, mat_hz_c d r c = mat_hz d' r c).
Proof.
  intros s dxf dxb bl k0 p d d'.
  assert (E : forall a r c, diagc s (cf_eps_t d a) r c = diagm s (d_eps d' a) r c).
  { intros a r c. unfold diagc, diagm, ravel. destruct (Nat.eqb r c); auto. unfold cf_eps_t, d, d'. cbn [cf_shape cf_eps d_eps]. apply yee_avg_c_real. }
  split; [| split].
  - intros a b r c. unfold mat3c, mat3. change (cf_shape d) with s. change (d_shape d') with s. rewrite E. reflexivity.
  - intros r c. unfold mat_ez_c, mat_ez, ddz. change (cf_shape d) with s. change (d_shape d') with s. rewrite E. reflexivity.
  - intros Hz r c. assert (E' : forall a r c, diagc s (inv_c (cf_eps_t d a)) r c = diagm s (inv_eps (d_eps d' a)) r c).
    { intros a r' c'. unfold diagc, diagm, ravel. destruct (Nat.eqb r' c'); auto. unfold inv_c, inv_eps, cf_eps_t, d, d'. cbn [cf_shape cf_eps d_eps]. rewrite yee_avg_c_real.
      set (z := yee_avg s p _ _ _ _). assert (z <> 0) by apply Hz. apply C_eq; unfold Cdiv, Cinv, Cn2; cbn [re im RtoC Cmul C1]; field; auto. }
    assert (M : forall A B D a r c, matmul (npix s) (matmul (npix s) A (diagc s (inv_c (cf_eps_t d a)))) B r c = D -> matmul (npix s) (matmul (npix s) A (diagm s (inv_eps (d_eps d' a)))) B r c = D).
    { intros A B D a r' c' <-. unfold matmul. apply Csum_ext. intros q _. f_equal. apply Csum_ext. intros q' _. rewrite E'. reflexivity. }
    unfold mat_hz_c, mat_hz. change (cf_shape d) with s. change (d_shape d') with s. change (cf_n d) with (npix s). change (dn d') with (npix s).
    f_equal. f_equal; [f_equal |]; symmetry; apply M; reflexivity.
Qed.
Definition no_source : fld := fun i _ _ => match i with O => C1 | _ => C0 end.
Lemma lossless_unsolvable : plain_grid (two_lossy C1 2) /\ forall solver, ~ exact2c (two_lossy C1 2) (mat_ez_c (two_lossy C1 2)) solver no_source.
Proof.
  split. { split; [exists (fun _ => 1); split; reflexivity | cbn; lra]. }
  intros solver E. apply exact_te_wave in E. set (e := fst (solve2_te_c (two_lossy C1 2) solver no_source) AZ) in *. clearbody e.
  pose proof (E 0%nat 0%nat 0%nat ltac:(repeat split; cbn; lia)) as E0. pose proof (E 1%nat 0%nat 0%nat ltac:(repeat split; cbn; lia)) as E1. clear E.
  pose proof (f_equal re E0) as R0. pose proof (f_equal re E1) as R1. clear E0 E1.
  unfold dminus, dplus, bwd_quot, fwd_quot, eps_at, two_lossy, no_source, left_of, right_of, line, uniform_dx in R0, R1.
  cbn -[Rplus Rmult Rminus Ropp Rinv Rdiv] in R0, R1. unfold Cn2 in R0, R1. cbn [re im RtoC] in R0, R1.
  assert (I1 : / (1 * 1 + 0 * 0) = 1) by (replace (1 * 1 + 0 * 0) with 1 by ring; apply Rinv_1).
  assert (I4 : / (4 * 4 + 0 * 0) = 1 / 16) by (replace (4 * 4 + 0 * 0) with 16 by ring; field).
  unfold Rdiv in R0, R1. rewrite ?I1, ?I4 in R0, R1. unfold Rdiv in R0, R1. lra.
Qed.
Lemma two_lossy_ok : forall eps k0, 0 < im eps -> 0 < k0 -> plain_grid (two_lossy eps k0) /\ lossy (two_lossy eps k0) (im eps) /\
  forall i j k, in_grid (cf_shape (two_lossy eps k0)) i j k -> Rabs (re (cf_eps (two_lossy eps k0) i j k)) <= (Rabs (re eps) / im eps) * Rabs (im (cf_eps (two_lossy eps k0) i j k)).
Proof.
  intros eps k0 He Hk. split; [| split].
  - split; [exists (fun _ => 1); split; reflexivity | exact Hk].
  - split; [exact He |]. left. intros. cbn. lra.
  - intros i j k _. cbn [two_lossy cf_eps]. rewrite (Rabs_right (im eps)) by lra. right. field. lra.
Qed.
Lemma tm_ampere_c : forall d solver src, cf_k0 d <> 0 ->
  let (e, h) := solve2_tm_c d solver src in
  forall c i j k, in_grid (cf_shape d) i j k -> eps_at (cf_shape d) (cf_eps d) c i j k <> C0 ->
  curl_of (bwd (cf_shape d) (cf_dxb d)) h c i j k = (Ci * RtoC (cf_k0 d) * eps_at (cf_shape d) (cf_eps d) c i j k * e c i j k)%C.
Proof.
  intros d solver src Hk. unfold solve2_tm_c. set (hz := unravel_f _ _) in *.
  intros c i j k H He. assert (Hik : cik0 d <> C0) by (intros E; apply Hk; apply (f_equal im) in E; unfold cik0 in E; cbn in E; lra).
  rewrite <- curl_bwd by auto. unfold curl_fn, only_z. fold (cik0 d).
  assert (Q : forall c, cf_eps_t d c i j k = eps_at (cf_shape d) (cf_eps d) c i j k) by (intros; apply eps_at_ok; auto).
  destruct c; rewrite ?Proof_fdfd2.diff_0, Q; field; auto.
Qed.
