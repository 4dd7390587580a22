(** C158: real inputs and absent inputs. *)
From Coq Require Import Reals Lra Lia List ZArith Bool.
From Verif Require Import Cx Arr Spec_circuit Model_coupling Model_forward Spec_mesh Proof_forward Proof_forward4 Model_vector Model_hess Proof_hess8 Proof_hess9 Model_kind Proof_kind.
Import ListNotations.
Local Open Scope R_scope.

(** C158, full statement: the matrix function, propagate and hessian_fd accept integer, real and complex arrays ("cast to complex if not
    already") and treat equal numbers equally, and propagate() without inputs uses the identity.  True of propagate with inputs, and of
    the other two with complex arrays. *)
Theorem C158_propagate_partial : forall m back explicit p k x,
  propagate_arr m back explicit p (Some (mkArr k x)) = propagate m back explicit p x.
Proof. exact kind_propagate. Qed.
Print Assumptions C158_propagate_partial.
Theorem C158_complex_partial : forall m back p x, matrix_fn_arr m back p (mkArr complex_kind x) = matrix_fn m back p x.
Proof. exact kind_complex. Qed.
Print Assumptions C158_complex_partial.
Theorem C158_hessian_complex_partial : forall eps x n balanced error, 0 <= eps -> (2 <= n)%nat -> 0 < power n x ->
  hessian_fd_arr eps (mkArr complex_kind x) n balanced error = hessian_fd eps x n balanced error.
Proof. exact kind_hess_complex. Qed.
Print Assumptions C158_hessian_complex_partial.
(** FALSE of the code otherwise: inputs += 0j cannot turn a real array into a complex one, so the call raises for every mesh; so does
    hessian_fd for every real vector, although hessian_vector_unit accepts it; and propagate() adds 0j to None. *)
Theorem C158_real_refuted : forall m back p x, matrix_fn_arr m back p (mkArr real_kind x) = None.
Proof. exact kind_real. Qed.
Print Assumptions C158_real_refuted.
Theorem C158_hessian_real_refuted : forall eps x n balanced error, (2 <= n)%nat -> hessian_fd_arr eps (mkArr real_kind x) n balanced error = None.
Proof. exact kind_hess_real. Qed.
Print Assumptions C158_hessian_real_refuted.
Theorem C158_no_inputs_refuted : forall m back explicit p, propagate_arr m back explicit p None = None.
Proof. exact kind_absent. Qed.
Print Assumptions C158_no_inputs_refuted.
(** The vector (1, 2, 2) is real and nonzero. *)
Example C158_nonvacuous : (2 <= 3)%nat /\ 0 < power 3 ex_v /\ (forall i, (i < 3)%nat -> im (ex_v i) = 0).
Proof. split; [repeat constructor |]. split; [exact ex_v_power |]. intros i Hi. destruct i as [| [| [| i]]]; try lia; reflexivity. Qed.
