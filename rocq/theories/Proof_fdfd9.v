(** The 3-D matrix and the jax operator differ with a Bloch phase (C37). *)
From Coq Require Import Reals List Arith ZArith Lra Lia.
From Verif Require Import Cx Arr Model_coupling Model_yee Spec_yee Proof_yee Proof_yee2 Model_fdfd Spec_fdfd Proof_fdfd Spec_bloch.
Local Open Scope R_scope.

Lemma bloch_mat_op3 : forall p k0, p <> C1 -> exists e, in_grid (d_shape (bloch_cells p k0)) 1 0 0 /\
  bmatvec (dn (bloch_cells p k0)) (mat3 (bloch_cells p k0)) (fun c => ravel (d_shape (bloch_cells p k0)) (e c)) AZ (ridx (d_shape (bloch_cells p k0)) 1 0 0)
    <> op3 (bloch_cells p k0) e AZ 1%nat 0%nat 0%nat.
Proof.
  intros p k0 Hp.
  assert (G : in_grid (d_shape (bloch_cells p k0)) 1 0 0) by (repeat split; cbn; lia).
  exists (fun c i j k => match c, i with AZ, 0%nat => C1 | _, _ => C0 end). split; [exact G |].
  rewrite mat3_apply by exact G. unfold op3, dcurl_h, dcurl_e, curl_fn, quot, bwd_quot, fwd_quot, left_of, right_of, line, diff_fn, roll_p1, roll_m1, along.
  cbn. unfold unravel, ravel, ridx, uniform_dx. cbn. intro E. apply Hp.
  assert (K : forall z : C, (z / RtoC 1 = z)%C) by (intro z; apply C_eq; unfold Cdiv, Cinv, Cn2; cbn [re im RtoC Cmul]; field).
  rewrite !K in E.
  pose proof (f_equal re E) as E1. pose proof (f_equal im E) as E2. cbn [re im RtoC Csub Cmul C0 C1] in E1, E2.
  apply C_eq; cbn [re im RtoC C1]; lra.
Qed.
