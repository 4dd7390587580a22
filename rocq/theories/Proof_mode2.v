(** Proofs about Model_mode: one-dimensional modes, a concrete two-dimensional mode. *)
From Coq Require Import Reals List Arith ZArith Lra Lia Bool.
From Verif Require Import Cx Arr Model_coupling Model_yee Spec_yee Proof_yee Proof_yee2 Proof_yee3 Model_fdfd Spec_fdfd Proof_fdfd Proof_fdfd2 Proof_fdfd5 Model_grid Model_mode Spec_mode Proof_mode.
Local Open Scope R_scope.

Lemma Ci_neq0 : Ci <> C0.
Proof. intro E0. apply (f_equal im) in E0. cbn in E0. lra. Qed.

Section OneD.
Variable q : mode_solver.
Notation s := (q_shape q).
Notation F a f := (diff_fn (q_shape q) (q_dx q) false f a).
Notation B a f := (diff_fn (q_shape q) (q_dx q) true f a).
Hypothesis Hy : q_shape q AY = 1%nat.
Hypothesis Hz : q_shape q AZ = 1%nat.
Hypothesis Hk : q_k0 q <> 0.

Lemma wg1_apply : forall v i j k, in_grid s i j k ->
  matvec (q_n q) (wg_matrix_1d q) v (ridx s i j k) =
  (RtoC (q_k0 q * q_k0 q) * (RtoC (q_eps q i j k) * unravel s v i j k) + F AX (B AX (unravel s v)) i j k)%C.
Proof.
  intros v i j k H. unfold wg_matrix_1d. rewrite matvec_add_m. f_equal.
  - rewrite matvec_scal_m. unfold q_n. f_equal. apply diagm_apply; auto.
  - apply (q_deriv2 q false true); auto.
Qed.
Lemma roll_b : forall f i j k, ((f i j k - roll_p1 s AX f i j k) / RtoC (q_h q AX))%C = B AX f i j k.
Proof. reflexivity. Qed.
Lemma roll_f : forall f i j k, ((roll_m1 s AX f i j k - f i j k) / RtoC (q_h q AX))%C = F AX f i j k.
Proof. reflexivity. Qed.

Lemma te_1d_maxwell : forall beta v, eigen1 q (RtoC (beta * beta)) v ->
  let m := unravel_f s v in
  maxwell_mode s (bwd s (q_dx q)) (fwd s (q_dx q)) (Ci * RtoC beta)%C (q_k0 q) (fun _ => q_eps q) (e_1d q false beta m) (h_1d q false beta m).
Proof.
  intros beta v He m. assert (HK : RtoC (q_k0 q) <> C0) by (apply RtoC_neq0; auto). pose proof Ci_neq0 as Hi.
  split.
  - intros c i j k H. unfold curl_of, with_kz. rewrite <- ?diff_bwd by auto.
    destruct c; unfold e_1d, h_1d; fold m.
    + rewrite diff_0. field. auto.
    + rewrite diff_0. field. auto.
    + rewrite diff_0, roll_b. change (fun i j k => m i j k) with m. field. auto.
  - intros c i j k H. unfold curl_of, with_kz. rewrite <- ?diff_fwd by auto. destruct c; unfold e_1d, h_1d.
    + rewrite diff_flat by auto. field. auto.
    + rewrite (diff_ext s (q_dx q) false _ (fun i j k => - Cinv (Ci * RtoC (q_k0 q)) * B AX m i j k)%C AX i j k);
        [| intros; rewrite roll_b; field; auto | exact H].
      rewrite (diff_scal s (q_dx q) false).
      pose proof (He _ (ridx_bound _ _ _ _ H)) as R. rewrite wg1_apply in R by auto. change (unravel s v) with m in R.
      change (v (ridx s i j k)) with (m i j k) in R.
      set (D := F AX (B AX m) i j k) in *. set (x := m i j k) in *. set (ep := RtoC (q_eps q i j k)) in *.
      assert (RD : D = (RtoC (beta * beta) * x - RtoC (q_k0 q * q_k0 q) * (ep * x))%C) by (rewrite <- R; ring).
      rewrite RD, !RtoC_mul. set (K := RtoC (q_k0 q)) in *. set (b := RtoC beta) in *.
      transitivity (((Ci * Ci) * (b * b) * x + b * b * x - K * K * ep * x) / (Ci * K))%C; [field; auto |]. rewrite Ci_sq.
      transitivity (- Cinv Ci * (K * ep * x))%C; [field; auto |]. rewrite Cinv_Ci. ring.
    + rewrite (diff_flat _ _ _ _ AY) by auto. rewrite (diff_ext s (q_dx q) false _ (fun _ _ _ => C0) AX i j k); [rewrite diff_0; ring | intros; field; auto | exact H].
Qed.

Lemma tm_1d_maxwell : forall beta x v, 0 < x -> (forall i j k, in_grid s i j k -> q_eps q i j k = x) -> eigen1 q (RtoC (beta * beta)) v ->
  let m := unravel_f s v in
  maxwell_mode s (bwd s (q_dx q)) (fwd s (q_dx q)) (Ci * RtoC beta)%C (- q_k0 q) (q_eps_t q) (e_1d q true beta m) (h_1d q true beta m).
Proof.
  intros beta x v Hx Hu He m. assert (HK : RtoC (q_k0 q) <> C0) by (apply RtoC_neq0; auto). pose proof Ci_neq0 as Hi.
  assert (Ee : forall c i j k, in_grid s i j k -> q_eps_t q c i j k = x) by (intros; apply yee_avg_const; auto).
  assert (HX : RtoC x <> C0) by (apply RtoC_neq0; lra).
  split.
  - intros c i j k H. unfold curl_of, with_kz. rewrite <- ?diff_bwd by auto. rewrite RtoC_opp. destruct c; unfold e_1d, h_1d.
    + rewrite diff_flat by auto. rewrite Ee by auto. field. auto.
    + rewrite (diff_ext s (q_dx q) true _ (fun i j k => - Cinv (Ci * RtoC (q_k0 q) * RtoC x) * F AX m i j k)%C AX i j k);
        [| intros; rewrite roll_f, Ee by auto; field; auto | exact H].
      rewrite (diff_scal s (q_dx q) true). rewrite Ee by auto. unfold q_dx. rewrite diff_same_axis by auto. fold (q_dx q).
      pose proof (He _ (ridx_bound _ _ _ _ H)) as R. rewrite wg1_apply in R by auto. change (unravel s v) with m in R.
      change (v (ridx s i j k)) with (m i j k) in R. rewrite Hu in R by auto.
      set (D := F AX (B AX m) i j k) in *. set (y := m i j k) in *.
      assert (RD : D = (RtoC (beta * beta) * y - RtoC (q_k0 q * q_k0 q) * (RtoC x * y))%C) by (rewrite <- R; ring).
      rewrite RD, !RtoC_mul. set (K := RtoC (q_k0 q)) in *. set (b := RtoC beta) in *. set (ep := RtoC x) in *.
      transitivity (((Ci * Ci) * (b * b) * y + b * b * y - K * K * ep * y) / (Ci * K * ep))%C; [field; auto |]. rewrite Ci_sq.
      transitivity (- Cinv Ci * (K * y))%C; [field; auto |]. rewrite Cinv_Ci. ring.
    + rewrite (diff_flat _ _ _ _ AY) by auto. rewrite (diff_ext s (q_dx q) true _ (fun _ _ _ => C0) AX i j k); [rewrite ?diff_0; ring | intros; rewrite Ee by auto; field; auto | exact H].
  - intros c i j k H. unfold curl_of, with_kz. rewrite <- ?diff_fwd by auto. rewrite RtoC_opp. rewrite Ee by auto. destruct c; unfold e_1d, h_1d; fold m.
    + rewrite diff_0. rewrite Ee by auto. field. auto.
    + rewrite diff_0. rewrite Ee by auto. field. auto.
    + rewrite diff_0, roll_f. change (fun i j k => m i j k) with m. rewrite Ee by auto. field. auto.
Qed.
End OneD.
