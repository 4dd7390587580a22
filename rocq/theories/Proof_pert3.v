(** Modes whose arrays vary continuously have continuous fields; two analytic families of modes. *)
From Coq Require Import Reals List Arith ZArith Lra Lia Bool.
From Verif Require Import Cx Arr Model_coupling Model_yee Spec_yee Proof_yee Proof_yee2 Proof_yee3 Model_fdfd Spec_fdfd Proof_fdfd Proof_fdfd2 Model_grid Model_mode Spec_mode Proof_mode Proof_mode2 Proof_mode3 Spec_orth Proof_orth Proof_orth2 Proof_orth4 Proof_orth5 Spec_pert Proof_pert Proof_pert2.
Import ListNotations.
Local Open Scope R_scope.

Lemma cc_ext : forall g f t0, (forall t, f t = g t) -> ccont g t0 -> ccont f t0.
Proof.
  intros g f t0 H [A B]. split; [apply (continuity_pt_locally_ext (fun t => re (g t)) (fun t => re (f t)) 1) | apply (continuity_pt_locally_ext (fun t => im (g t)) (fun t => im (f t)) 1)]; auto; try lra; intros t _; rewrite H; reflexivity.
Qed.
Lemma cc_inv : forall f t0, ccont f t0 -> f t0 <> C0 -> ccont (fun t => Cinv (f t)) t0.
Proof.
  intros f t0 [A B] H. pose proof (Cn2_pos (f t0) H) as N.
  assert (D : continuity_pt (fun t => / Cn2 (f t)) t0).
  { apply (continuity_pt_inv (fun t => Cn2 (f t))); [| lra]. unfold Cn2.
    apply (continuity_pt_plus (fun t => re (f t) * re (f t)) (fun t => im (f t) * im (f t))); apply (continuity_pt_mult _ _ _); assumption. }
  split; unfold Cinv; cbn [re im]; unfold Rdiv.
  - apply (continuity_pt_mult (fun t => re (f t)) (fun t => / Cn2 (f t))); assumption.
  - apply (continuity_pt_mult (fun t => - im (f t)) (fun t => / Cn2 (f t))); [apply (continuity_pt_opp (fun t => im (f t))); assumption | assumption].
Qed.
Lemma cc_div : forall f g t0, ccont f t0 -> ccont g t0 -> g t0 <> C0 -> ccont (fun t => f t / g t)%C t0.
Proof. intros. unfold Cdiv. apply (cc_mul f (fun t => Cinv (g t))); [assumption | apply cc_inv; assumption]. Qed.

Section Lib.
Variable q : R -> mode_solver.
Variable m : R -> mode2.
Variable t0 : R.
Variable s : shape3.
Variable hh : axis -> R.
Hypothesis Hs : forall t, q_shape (q t) = s.
Hypothesis Hh : forall t, q_h (q t) = hh.
Hypothesis Hd : forall a, hh a <> 0.
Hypothesis Hk : continuity_pt (fun t => q_k0 (q t)) t0.
Hypothesis Hk0 : q_k0 (q t0) <> 0.
Hypothesis He : forall c i j k, in_grid s i j k -> continuity_pt (fun t => q_eps_t (q t) c i j k) t0.
Hypothesis He0 : forall c i j k, in_grid s i j k -> q_eps_t (q t0) c i j k <> 0.
Hypothesis Hb : continuity_pt (fun t => m_beta (m t)) t0.
Hypothesis Hb0 : m_beta (m t0) <> 0.
Hypothesis Hx : forall x, (x < npix s)%nat -> ccont (fun t => m_vx (m t) x) t0.
Hypothesis Hy : forall x, (x < npix s)%nat -> ccont (fun t => m_vy (m t) x) t0.
Hypothesis Hp : ccont (fun t => cis (- Carg (m_vx (m t) 0%nat))) t0.

Lemma lib_h_cont : field_cont s (fun t => lib_h (q t) (m t)) t0.
Proof.
  intros c i j k H. unfold lib_h, mode_h. apply (cc_mul _ (fun t => cis (- Carg (m_vx (m t) 0%nat)))); [| exact Hp].
  unfold unravel_f. 
  assert (E : forall t, ridx (q_shape (q t)) i j k = ridx s i j k) by (intro; rewrite Hs; reflexivity).
  assert (B : (ridx s i j k < npix s)%nat) by (apply ridx_bound; exact H).
  destruct c.
  - eapply (cc_ext (fun t => m_vx (m t) (ridx s i j k))); [intro t; rewrite E; reflexivity | apply Hx; exact B].
  - eapply (cc_ext (fun t => m_vy (m t) (ridx s i j k))); [intro t; rewrite E; reflexivity | apply Hy; exact B].
  - set (df := deriv s (uniform_dx hh) (fun _ => C1) false).
    eapply (cc_ext (fun t => (matvec (npix s) (df AX) (m_vx (m t)) (ridx s i j k) + matvec (npix s) (df AY) (m_vy (m t)) (ridx s i j k)) / (Ci * RtoC (m_beta (m t))))%C).
    + intro t. rewrite E. unfold q_df, q_n, q_dx. rewrite Hs, Hh. reflexivity.
    + apply (cc_div (fun t => matvec (npix s) (df AX) (m_vx (m t)) (ridx s i j k) + matvec (npix s) (df AY) (m_vy (m t)) (ridx s i j k))%C (fun t => (Ci * RtoC (m_beta (m t)))%C)).
      * unfold matvec. apply cc_add; apply cc_sum; intros x Hxx; (apply cc_mul; [apply cc_const | auto]).
      * apply cc_mul; [apply cc_const | apply cc_real; exact Hb].
      * intro X. apply (f_equal im) in X. cbn in X. lra.
Qed.
Lemma diff_cont : forall (F : R -> fld) b a i j k, (forall i j k, in_grid s i j k -> ccont (fun t => F t i j k) t0) -> in_grid s i j k ->
  ccont (fun t => diff_fn s (uniform_dx hh) b (F t) a i j k) t0.
Proof.
  intros F b a i j k HF H. pose proof H as (Hi & Hj & Hkk).
  assert (R1 : ccont (fun t => roll_p1 s a (F t) i j k) t0).
  { unfold roll_p1, along. destruct a; apply HF; repeat split; auto; apply prv_bound; assumption. }
  assert (R2 : ccont (fun t => roll_m1 s a (F t) i j k) t0).
  { unfold roll_m1, along. destruct a; apply HF; repeat split; auto; apply nxt_bound; assumption. }
  assert (Z : uniform_dx hh a (coord a i j k) <> C0) by (unfold uniform_dx; apply RtoC_neq0; apply Hd).
  unfold diff_fn. destruct b; (apply (cc_div _ (fun _ => uniform_dx hh a (coord a i j k))); [apply cc_sub; auto | apply cc_const | exact Z]).
Qed.
Lemma lib_e_cont : field_cont s (fun t => lib_e (q t) (m t)) t0.
Proof.
  pose proof lib_h_cont as HH. intros c i j k H. unfold lib_e, mode_e.
  assert (HF : forall a, forall i j k, in_grid s i j k -> ccont (fun t => lib_h (q t) (m t) a i j k) t0) by (intros; apply HH; assumption).
  eapply (cc_ext (fun t => (curl_beta_fn (diff_fn s (uniform_dx hh) true) (m_beta (m t)) (lib_h (q t) (m t)) c i j k / (Ci * RtoC (q_k0 (q t)) * RtoC (q_eps_t (q t) c i j k)))%C)).
  - intro t. unfold q_dx. rewrite Hs, Hh. reflexivity.
  - apply (cc_div (fun t => curl_beta_fn (diff_fn s (uniform_dx hh) true) (m_beta (m t)) (lib_h (q t) (m t)) c i j k) (fun t => (Ci * RtoC (q_k0 (q t)) * RtoC (q_eps_t (q t) c i j k))%C)).
    + assert (CB : ccont (fun t => (Ci * RtoC (m_beta (m t)))%C) t0) by (apply cc_mul; [apply cc_const | apply cc_real; exact Hb]).
      unfold curl_beta_fn. destruct c.
      * apply cc_add; [apply (diff_cont (fun t => lib_h (q t) (m t) AZ)); auto | apply cc_mul; auto].
      * apply cc_sub; [apply cc_mul; [apply cc_opp; exact CB | auto] | apply (diff_cont (fun t => lib_h (q t) (m t) AZ)); auto].
      * apply cc_sub; [apply (diff_cont (fun t => lib_h (q t) (m t) AY)); auto | apply (diff_cont (fun t => lib_h (q t) (m t) AX)); auto].
    + apply cc_mul; [apply cc_mul; [apply cc_const | apply cc_real; exact Hk] | apply cc_real; apply He; exact H].
    + specialize (He0 c i j k H). intro X. apply (f_equal im) in X. cbn in X. assert (Y : q_k0 (q t0) * q_eps_t (q t0) c i j k = 0) by lra.
      apply Rmult_integral in Y. tauto.
Qed.
End Lib.
