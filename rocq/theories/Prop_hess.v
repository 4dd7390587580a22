(** C91-C93: the Hessian of a programmed vector unit. *)
From Coq Require Import Reals List.
From Verif Require Import Cx Arr Spec_circuit Model_coupling Model_forward Model_vector Model_hess Spec_hess Proof_hess8 Proof_hess9 Proof_hess10.
Local Open Scope R_scope.

(** C91: for every division guard eps >= 0 (the code's is np.spacing(1)) the theta-theta and phi-phi blocks are the second partial
    derivatives of the misfit at the programmed phases, up to sqrt (72 (n - 1) eps), the matrix is exactly symmetric, and an entry of an
    off-diagonal block is, up to the same error, the second partial by the OTHER phase of each of its two nodes. *)
Theorem C91_hessian_blocks_partial : forall eps n balanced v, 0 <= eps -> (2 <= n)%nat -> 0 < power n v ->
  exists m p h, conj_unit eps (normalize n v) n balanced = Some (m, p) /\ hessian_vector_unit eps v n balanced = Some h /\
    forall a b, (a < 2 * (n - 1))%nat -> (b < 2 * (n - 1))%nat ->
      (same_kind n a b -> exists d, second_partial m n (fun i => Cconj (normalize n v i)) p a b d /\ (h a b - d) ^ 2 <= 72 * INR (n - 1) * eps) /\
      (~ same_kind n a b -> exists d, second_partial m n (fun i => Cconj (normalize n v i)) p (other n a) (other n b) d /\ (h a b - d) ^ 2 <= 72 * INR (n - 1) * eps) /\
      h a b = h b a.
Proof. exact hessian_blocks_eps. Qed.
(** Without the guard: exactly the second partials. *)
Theorem C91_exact_without_guard_partial : forall n balanced v, (2 <= n)%nat -> 0 < power n v ->
  exists m p h, conj_unit 0 (normalize n v) n balanced = Some (m, p) /\ hessian_vector_unit 0 v n balanced = Some h /\
    forall a b, (a < 2 * (n - 1))%nat -> (b < 2 * (n - 1))%nat ->
      (same_kind n a b -> second_partial m n (fun i => Cconj (normalize n v i)) p a b (h a b)) /\
      (~ same_kind n a b -> second_partial m n (fun i => Cconj (normalize n v i)) p (other n a) (other n b) (h a b)) /\
      h a b = h b a.
Proof. exact hessian_blocks_spec. Qed.
(** C91, the documented claim is false: for every n >= 3, both trees and every vector whose normalised entries have power at least mu, and
    every guard small against mu^2, some entry is off its second partial by at least mu / 2. *)
Theorem C91_hessian_refuted : forall eps n balanced v mu, 0 <= eps -> (3 <= n)%nat -> 0 < mu -> 0 < power n v ->
  (forall i, (i < n)%nat -> mu <= Cn2 (normalize n v i)) -> 7200 * INR (n - 1) * eps <= mu ^ 2 ->
  exists m p h a b d, conj_unit eps (normalize n v) n balanced = Some (m, p) /\ hessian_vector_unit eps v n balanced = Some h /\
    (a < 2 * (n - 1))%nat /\ (b < 2 * (n - 1))%nat /\ second_partial m n (fun i => Cconj (normalize n v i)) p a b d /\ mu / 2 <= Rabs (h a b - d).
Proof. exact hessian_wrong_eps. Qed.
(** Without the guard, for every vector without zero entries. *)
Theorem C91_exact_refuted : forall n balanced v, (3 <= n)%nat -> (forall i, (i < n)%nat -> v i <> C0) ->
  exists m p h a b, conj_unit 0 (normalize n v) n balanced = Some (m, p) /\ hessian_vector_unit 0 v n balanced = Some h /\
    (a < 2 * (n - 1))%nat /\ (b < 2 * (n - 1))%nat /\ ~ second_partial m n (fun i => Cconj (normalize n v i)) p a b (h a b).
Proof. exact hessian_wrong. Qed.
(** C92: for every division guard eps >= 0 the finite-difference Hessian is (sin e / e)^2 times the analytic one, entry by entry, up to
    (sin e / e)^2 sqrt (72 (n - 1) eps). *)
Theorem C92_hessian_fd_agrees : forall eps n balanced v error, 0 <= eps -> (2 <= n)%nat -> 0 < power n v -> error <> 0 ->
  exists h hf, hessian_vector_unit eps v n balanced = Some h /\ hessian_fd eps v n balanced error = Some hf /\
    forall a b, (a < 2 * (n - 1))%nat -> (b < 2 * (n - 1))%nat ->
      (hf a b - (sin error / error) ^ 2 * h a b) ^ 2 <= (sin error / error) ^ 4 * (72 * INR (n - 1) * eps).
Proof. exact hessian_fd_eps. Qed.
(** Without the guard: exactly. *)
Theorem C92_exact_without_guard : forall n balanced v error, (2 <= n)%nat -> 0 < power n v -> error <> 0 ->
  exists h hf, hessian_vector_unit 0 v n balanced = Some h /\ hessian_fd 0 v n balanced error = Some hf /\
    forall a b, (a < 2 * (n - 1))%nat -> (b < 2 * (n - 1))%nat -> hf a b = (sin error / error) ^ 2 * h a b.
Proof. exact hessian_fd_spec. Qed.
(** C93: for every division guard eps >= 0 (the code's is np.spacing(1)) the programmed phases are a global minimum of the misfit up
    to 2 (n - 1) eps, and the gradient is zero up to sqrt (8 (n - 1) eps). *)
Theorem C93_vector_unit_minimum : forall eps n balanced v, 0 <= eps -> (2 <= n)%nat -> 0 < power n v ->
  exists m p, conj_unit eps (normalize n v) n balanced = Some (m, p) /\
    0 <= misfit m n (fun i => Cconj (normalize n v i)) p <= 2 * INR (n - 1) * eps /\
    (forall p', 0 <= misfit m n (fun i => Cconj (normalize n v i)) p') /\
    (forall a, (a < 2 * (n - 1))%nat -> exists d, derivable_pt_lim (fun s => misfit m n (fun i => Cconj (normalize n v i)) (bump n p a s)) 0 d /\
       d ^ 2 <= 8 * INR (n - 1) * eps).
Proof. exact unit_minimum_eps. Qed.
(** Without the guard: exactly zero. *)
Theorem C93_exact_without_guard : forall n balanced v, (2 <= n)%nat -> 0 < power n v ->
  exists m p, conj_unit 0 (normalize n v) n balanced = Some (m, p) /\
    misfit m n (fun i => Cconj (normalize n v i)) p = 0 /\
    (forall p', 0 <= misfit m n (fun i => Cconj (normalize n v i)) p') /\
    (forall a, (a < 2 * (n - 1))%nat -> derivable_pt_lim (fun s => misfit m n (fun i => Cconj (normalize n v i)) (bump n p a s)) 0 0).
Proof. exact unit_minimum. Qed.

(** Non-vacuity: the vector (1, 2, 2) meets every hypothesis. *)
Example hess_nonvacuous : (2 <= 3)%nat /\ 0 < power 3 ex_v /\ (forall i, (i < 3)%nat -> ex_v i <> C0).
Proof. split; [repeat constructor | split; [exact ex_v_power | exact ex_v_nz]]. Qed.
(** The machine guard 2^-52 and the vector (1, 2, 2) meet the hypotheses of the refutation. *)
Example hess_guard_nonvacuous : 0 <= / 2 ^ 52 /\ 0 < 1 / 9 /\ (forall i, (i < 3)%nat -> 1 / 9 <= Cn2 (normalize 3 ex_v i)) /\ 7200 * INR (3 - 1) * / 2 ^ 52 <= (1 / 9) ^ 2.
Proof. exact ex_v_guard. Qed.

Print Assumptions C91_hessian_blocks_partial.
Print Assumptions C91_hessian_refuted.
Print Assumptions C91_exact_refuted.
Print Assumptions C91_exact_without_guard_partial.
Print Assumptions C92_hessian_fd_agrees.
Print Assumptions C92_exact_without_guard.
Print Assumptions C93_vector_unit_minimum.
Print Assumptions C93_exact_without_guard.
