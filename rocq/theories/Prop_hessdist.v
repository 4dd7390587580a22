(** C156: hessian_distribution. *)
From Coq Require Import Reals Lra Lia List Arith.
From Verif Require Import Cx Arr Spec_circuit Model_coupling Model_forward Model_vector Model_hess Spec_hess Proof_hess10 Model_hessdist Proof_hessdist Proof_hess8.
Import ListNotations.
Local Open Scope R_scope.

(** What a sample holds: the second partials of the misfit by theta_0 and each theta, then (see C91) those by phi_0 and each theta. *)
Theorem C156_samples_partial : forall eps n balanced draws, 0 <= eps -> (2 <= n)%nat -> (forall v, In v draws -> 0 < power n v) ->
  exists l, hessian_distribution eps n balanced draws = Some l /\ length l = length draws /\
    forall k, (k < length draws)%nat -> let v := nth k draws (fun _ => C0) in
      exists m p, conj_unit eps (normalize n v) n balanced = Some (m, p) /\
      (forall b, (b < n - 1)%nat -> exists d, second_partial m n (fun i => Cconj (normalize n v i)) p 0 b d /\ (nth b (nth k l []) 0 - d) ^ 2 <= 72 * INR (n - 1) * eps) /\
      (forall b, (b < n - 1)%nat -> exists d, second_partial m n (fun i => Cconj (normalize n v i)) p (n - 1) b d /\ (nth (b + (n - 1)) (nth k l []) 0 - d) ^ 2 <= 72 * INR (n - 1) * eps).
Proof. exact dist_rows. Qed.
Print Assumptions C156_samples_partial.
(** It is not a Hessian: a sample has 2 (n - 1) numbers, a Hessian of 2 (n - 1) phases their square. *)
Theorem C156_hessian_refuted : forall eps n balanced draws l k, (2 <= n)%nat -> hessian_distribution eps n balanced draws = Some l -> (k < length draws)%nat ->
  (length (nth k l []) < (2 * (n - 1)) * (2 * (n - 1)))%nat.
Proof. intros eps n balanced draws l k Hn E Hk. rewrite (dist_shape _ _ _ _ _ _ E Hk). nia. Qed.
Print Assumptions C156_hessian_refuted.
Example C156_nonvacuous : (2 <= 3)%nat /\ (forall v, In v [ex_v; ex_v] -> 0 < power 3 v).
Proof. split; [lia |]. intros v [<- | [<- | []]]; exact ex_v_power. Qed.
