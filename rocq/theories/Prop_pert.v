(** C174: how the propagation constant of a mode responds to the wavelength and to the permittivity. *)
From Coq Require Import Reals List Arith ZArith Lra Lia Bool.
From Verif Require Import Cx Arr Model_coupling Model_yee Spec_yee Model_fdfd Spec_fdfd Model_grid Model_mode Spec_mode Spec_orth Proof_orth4 Spec_pert Proof_pert Proof_pert2 Proof_pert3 Proof_pert4.
Import ListNotations.
Local Open Scope R_scope.

(** Any two modes of any two solvers on the same grid: exact. *)
Theorem C174_exact : forall q1 q2 m1 m2, q_shape q1 = q_shape q2 -> q_h q1 = q_h q2 -> q_k0 q1 <> 0 -> q_k0 q2 <> 0 -> pos_eps q1 -> pos_eps q2 ->
  is_mode2 q1 m1 -> is_mode2 q2 m2 -> let s := q_shape q2 in
  (RtoC (m_beta m1 - m_beta m2) * (cross_power s (lib_e q1 m1) (lib_h q2 m2) + Cconj (cross_power s (lib_e q2 m2) (lib_h q1 m1))))%C =
  (RtoC (q_k0 q1 - q_k0 q2) * vinner s (lib_h q1 m1) (lib_h q2 m2) +
   vinner s (fun c i j k => RtoC (q_k0 q1 * edge_eps s (q_eps q1) c i j k - q_k0 q2 * edge_eps s (q_eps q2) c i j k) * lib_e q1 m1 c i j k)%C (lib_e q2 m2))%C.
Proof. exact pert_exact. Qed.
Print Assumptions C174_exact.
(** Infinitesimally, for any smooth change of wavelength and permittivity. *)
Theorem C174_response : forall q m t0 r dk (dw : axis -> rfld), mode_family q m t0 r -> let s := q_shape (q t0) in
  field_cont s (fun t => lib_e (q t) (m t)) t0 -> field_cont s (fun t => lib_h (q t) (m t)) t0 ->
  derivable_pt_lim (fun t => q_k0 (q t)) t0 dk ->
  (forall c i j k, in_grid s i j k -> derivable_pt_lim (fun t => q_k0 (q t) * edge_eps s (q_eps (q t)) c i j k) t0 (dw c i j k)) ->
  power2 (q t0) (m t0) <> 0 ->
  derivable_pt_lim (fun t => m_beta (m t)) t0
    ((dk * weighted_sq s (fun _ _ _ _ => 1) (lib_h (q t0) (m t0)) + weighted_sq s dw (lib_e (q t0) (m t0))) / power2 (q t0) (m t0)).
Proof. exact pert_deriv. Qed.
Print Assumptions C174_response.
(** Group index: dn/dlambda = (n - ng) / lambda with ng the energy per length over the power ... *)
Theorem C174_group_index : forall q m l0 r, l0 <> 0 -> mode_family (fun l => update_wavelength q l) m l0 r -> let s := q_shape q in let q0 := update_wavelength q l0 in
  field_cont s (fun l => lib_e (update_wavelength q l) (m l)) l0 -> field_cont s (fun l => lib_h (update_wavelength q l) (m l)) l0 ->
  power2 q0 (m l0) <> 0 ->
  let ng := (weighted_sq s (fun _ _ _ _ => 1) (lib_h q0 (m l0)) + weighted_sq s (edge_eps s (q_eps q)) (lib_e q0 (m l0))) / power2 q0 (m l0) in
  derivable_pt_lim (fun l => m_beta (m l)) l0 (ng * (- (2 * PI / l0) / l0)) /\
  derivable_pt_lim (fun l => m_beta (m l) / (2 * PI / l)) l0 ((m_beta (m l0) / (2 * PI / l0) - ng) / l0).
Proof. exact group_index. Qed.
Print Assumptions C174_group_index.
(** ... which is at least the smallest refractive index on the grid: no mode carries energy faster than light in the least dense material. *)
Theorem C174_group_velocity : forall q m n, 0 <= n -> (forall i j k, in_grid (q_shape q) i j k -> n * n <= q_eps q i j k) -> power2 q m <> 0 ->
  n <= Rabs ((weighted_sq (q_shape q) (fun _ _ _ _ => 1) (lib_h q m) + weighted_sq (q_shape q) (edge_eps (q_shape q) (q_eps q)) (lib_e q m)) / power2 q m).
Proof. exact group_bound. Qed.
Print Assumptions C174_group_velocity.
(** The family of modes of a 2 x 2 cross section with permittivity 1 and 3, at every wavelength. *)
Example C174_nonvacuous : forall l, 0 < l -> mode_family (fun l => update_wavelength py l) py_m l (Rabs l) /\
  field_cont (q_shape py) (fun l => lib_e (update_wavelength py l) (py_m l)) l /\ field_cont (q_shape py) (fun l => lib_h (update_wavelength py l) (py_m l)) l /\
  power2 (update_wavelength py l) (py_m l) <> 0.
Proof.
  intros l H. assert (l <> 0) by lra. destruct (py_cont l H0). split; [apply py_family; assumption | split; [assumption | split; [assumption | apply py_power; assumption]]].
Qed.

(** 1-d cross sections. *)
Theorem C174_exact_1d : forall q1 q2 lam1 v1 lam2 v2, q_shape q1 = q_shape q2 -> q_h q1 = q_h q2 -> eigen1 q1 (RtoC lam1) v1 -> eigen1 q2 (RtoC lam2) v2 ->
  let s := q_shape q2 in
  (RtoC (lam1 - lam2) * vdot (q_n q2) v1 v2)%C =
  inner s (fun i j k => RtoC (q_k0 q1 * q_k0 q1 * q_eps q1 i j k - q_k0 q2 * q_k0 q2 * q_eps q2 i j k) * unravel_f s v1 i j k)%C (unravel_f s v2).
Proof. exact eig1_two. Qed.
Print Assumptions C174_exact_1d.
Theorem C174_response_1d : forall q beta v t0 r (dw : rfld), mode_family1 q beta v t0 r ->
  (forall i j k, in_grid (q_shape (q t0)) i j k -> derivable_pt_lim (fun t => q_k0 (q t) * q_k0 (q t) * q_eps (q t) i j k) t0 (dw i j k)) ->
  derivable_pt_lim beta t0 (weighted_sq1 (q t0) dw (v t0) / (2 * beta t0 * weighted_sq1 (q t0) (fun _ _ _ => 1) (v t0))).
Proof. exact deriv_1d. Qed.
Print Assumptions C174_response_1d.
(** The index times the group index is the mean permittivity, weighted by the mode. *)
Theorem C174_group_index_1d : forall q beta v l0 r lo hi, l0 <> 0 -> mode_family1 (fun l => update_wavelength q l) beta v l0 r ->
  (forall i j k, in_grid (q_shape q) i j k -> lo <= q_eps q i j k <= hi) ->
  let n := beta l0 / (2 * PI / l0) in
  exists ng, derivable_pt_lim beta l0 (ng * (- (2 * PI / l0) / l0)) /\
    derivable_pt_lim (fun l => beta l / (2 * PI / l)) l0 ((n - ng) / l0) /\
    n * ng * weighted_sq1 q (fun _ _ _ => 1) (v l0) = weighted_sq1 q (q_eps q) (v l0) /\ lo <= n * ng <= hi.
Proof. exact group_1d_range. Qed.
Print Assumptions C174_group_index_1d.
(** Fundamental modes: the propagation constant grows with the permittivity and with the frequency, for changes of any size. *)
Theorem C174_monotone_1d : forall q1 q2 lam1 v1 lam2 v2, q_shape q1 = q_shape q2 -> q_h q1 = q_h q2 -> (0 < q_n q2)%nat ->
  eigen1 q1 (RtoC lam1) v1 -> eigen1 q2 (RtoC lam2) v2 -> positive_array (q_n q2) v1 -> positive_array (q_n q2) v2 ->
  (forall i j k, in_grid (q_shape q2) i j k -> q_k0 q2 * q_k0 q2 * q_eps q2 i j k <= q_k0 q1 * q_k0 q1 * q_eps q1 i j k) ->
  lam2 <= lam1 /\ ((exists i j k, in_grid (q_shape q2) i j k /\ q_k0 q2 * q_k0 q2 * q_eps q2 i j k < q_k0 q1 * q_k0 q1 * q_eps q1 i j k) -> lam2 < lam1).
Proof. exact mono_1d. Qed.
Print Assumptions C174_monotone_1d.
Example C174_nonvacuous_1d : forall l, l <> 0 -> mode_family1 (fun l => update_wavelength ox l) px_b px_v l (Rabs l) /\
  eigen1 (update_wavelength ox l) (RtoC (px_b l * px_b l)) (px_v l) /\ positive_array (q_n ox) (px_v l) /\
  (forall i j k, in_grid (q_shape ox) i j k -> 7 <= q_eps ox i j k <= 10).
Proof.
  intros l H. split; [apply px_family; exact H | split; [apply px_eigen; exact H | split; [apply px_positive; exact H |]]].
  intros i j k _. cbn. destruct i; lra.
Qed.
