(** C111 - C113: orthogonality of guided modes, range of effective indices, crosstalk of mode measurements. *)
From Coq Require Import Reals List Arith ZArith Lra Lia Bool.
From Verif Require Import Cx Arr Model_coupling Model_yee Spec_yee Model_fdfd Spec_fdfd Model_adj Model_mode Spec_mode Spec_orth Proof_orth Proof_orth2 Proof_orth3 Proof_orth4 Proof_orth5.
Import ListNotations.
Local Open Scope R_scope.

(** C111: 2-d cross sections: two modes with different propagation constants carry no power together. *)
Theorem C111_modes_orthogonal : forall q m1 m2, q_k0 q <> 0 -> pos_eps q -> is_mode2 q m1 -> is_mode2 q m2 ->
  m_beta m1 * m_beta m1 <> m_beta m2 * m_beta m2 -> cross_power (q_shape q) (lib_e q m1) (lib_h q m2) = C0.
Proof. intros; apply lib_orth; auto. Qed.
Print Assumptions C111_modes_orthogonal.
(** 1-d cross sections: the mode arrays themselves are orthogonal. *)
Theorem C111_modes_orthogonal_1d : forall q lam1 v1 lam2 v2, eigen1 q (RtoC lam1) v1 -> eigen1 q (RtoC lam2) v2 -> lam1 <> lam2 ->
  vdot (q_n q) v1 v2 = C0.
Proof. exact modes1_orth. Qed.
Print Assumptions C111_modes_orthogonal_1d.
(** Hence the power of a superposition advanced by evolve is the weighted sum of the powers of its modes, at every length. *)
Theorem C111_evolve_power : forall q, q_k0 q <> 0 -> pos_eps q -> forall ms ws len,
  (forall m, In m ms -> is_mode2 q m) -> distinct_sq (map m_beta ms) ->
  cross_power (q_shape q) (evolve (map (fun m => (lib_e q m, m_beta m)) ms) ws len) (evolve (map (fun m => (lib_h q m, m_beta m)) ms) ws len) =
  weighted_power q ms ws.
Proof. exact evolve_power. Qed.
Print Assumptions C111_evolve_power.
Example C111_nonvacuous : q_k0 oy <> 0 /\ pos_eps oy /\ eps_below oy 3 /\ (forall m, In m [oy_1; oy_2] -> is_mode2 oy m) /\
  distinct_sq (map m_beta [oy_1; oy_2]) /\ nonzero (q_n oy) (m_vy oy_1).
Proof. exact oy_ok. Qed.

(** C112: no effective index exceeds the largest index of the cross section (beta^2 <= k0^2 max eps) ... *)
Theorem C112_index_bound : forall q M m, q_k0 q <> 0 -> pos_eps q -> eps_below q M -> is_mode2 q m ->
  nonzero (q_n q) (m_vx m) \/ nonzero (q_n q) (m_vy m) -> m_beta m * m_beta m <= q_k0 q * q_k0 q * M.
Proof. intros q M m Hk Hp HM [Hb He] Hn. apply (modes2_bound q M (m_beta m) (m_vx m) (m_vy m)); auto. lra. Qed.
Print Assumptions C112_index_bound.
(** ... also in 1-d, where moreover every eigenvalue of the operator is real: taking the real part loses nothing. *)
Theorem C112_index_bound_1d : forall q M lam v, eps_below q M -> eigen1 q lam v -> nonzero (q_n q) v ->
  im lam = 0 /\ re lam <= q_k0 q * q_k0 q * M.
Proof. intros. split; [eapply modes1_real; eauto | eapply modes1_bound; eauto]. Qed.
Print Assumptions C112_index_bound_1d.
Example C112_nonvacuous : eigen1 ox (RtoC (3 * 3)) ox_u /\ eigen1 ox (RtoC (2 * 2)) ox_v /\ eps_below ox 10 /\ nonzero (q_n ox) ox_u.
Proof.
  split; [apply ox_eigen | split; [apply ox_eigen | split]].
  - intros i j k _. cbn. destruct i; lra.
  - exists 0%nat. split; [cbn; lia |]. cbn. intro X. apply RtoC_inj in X. lra.
Qed.

(** C113: measuring a mode in the fields of another mode.  In a uniform medium: (0, 0). *)
Theorem C113_uniform_partial : forall q, q_shape q AY = 1%nat -> q_shape q AZ = 1%nat -> q_k0 q <> 0 -> forall x,
  (forall i j k, in_grid (q_shape q) i j k -> q_eps q i j k = x) -> 0 < x -> forall (tm : bool) b1 v1 b2 v2,
  eigen1 q (RtoC (b1 * b1)) v1 -> eigen1 q (RtoC (b2 * b2)) v2 -> b1 * b1 <> b2 * b2 ->
  let m1 := unravel_f (q_shape q) v1 in let m2 := unravel_f (q_shape q) v2 in
  measure (q_shape q AX) 1 (as_array (e_1d q tm b1 m1)) (as_array (h_1d q tm b1 m1)) (as_array (e_1d q tm b2 m2)) (as_array (h_1d q tm b2 m2)) = (C0, C0).
Proof. exact measure_uniform. Qed.
Print Assumptions C113_uniform_partial.
(** In a waveguide: not, for either polarisation. *)
Theorem C113_crosstalk_refuted : exists q b1 v1 b2 v2, q_shape q AY = 1%nat /\ q_shape q AZ = 1%nat /\ q_k0 q <> 0 /\ pos_eps q /\
  0 < b1 /\ 0 < b2 /\ b1 <> b2 /\ eigen1 q (RtoC (b1 * b1)) v1 /\ eigen1 q (RtoC (b2 * b2)) v2 /\
  forall tm : bool, let m1 := unravel_f (q_shape q) v1 in let m2 := unravel_f (q_shape q) v2 in
  measure (q_shape q AX) 1 (as_array (e_1d q tm b1 m1)) (as_array (h_1d q tm b1 m1)) (as_array (e_1d q tm b2 m2)) (as_array (h_1d q tm b2 m2)) <> (C0, C0).
Proof.
  exists ox, 3, ox_u, 2, ox_v. destruct ox_eigen as [A B].
  repeat (split; [first [reflexivity | exact ox_pos | exact A | exact B | cbn; lra] |]). exact ox_crosstalk.
Qed.
Print Assumptions C113_crosstalk_refuted.
