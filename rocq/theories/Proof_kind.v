(** Proofs for C158. *)
From Coq Require Import Reals Lra Lia List Arith ZArith Bool Permutation.
From Verif Require Import Cx Arr Spec_circuit Model_coupling Model_forward Model_vector Model_hess Spec_mesh Spec_tree Spec_hess Proof_node Proof_mesh Proof_forward Proof_forward2 Proof_forward3 Proof_forward4 Proof_tree Proof_vector Proof_insitu Proof_hess9 Model_kind.
Import ListNotations.
Local Open Scope R_scope.

Lemma kind_complex : forall m back p x, matrix_fn_arr m back p (mkArr complex_kind x) = matrix_fn m back p x.
Proof. reflexivity. Qed.
Lemma kind_propagate : forall m back explicit p k x, propagate_arr m back explicit p (Some (mkArr k x)) = propagate m back explicit p x.
Proof. reflexivity. Qed.
Lemma kind_real : forall m back p x, matrix_fn_arr m back p (mkArr real_kind x) = None.
Proof. reflexivity. Qed.
Lemma kind_absent : forall m back explicit p, propagate_arr m back explicit p None = None.
Proof. reflexivity. Qed.
Lemma kind_hess_real : forall eps x n balanced error, (2 <= n)%nat -> hessian_fd_arr eps (mkArr real_kind x) n balanced error = None.
Proof.
  intros eps x n balanced error Hn. unfold hessian_fd_arr. destruct (conj_unit _ _ _ _) as [r |]; [| reflexivity]. cbn [obind].
  destruct (n - 1)%nat eqn:E; [lia |]. reflexivity.
Qed.
Lemma kind_hess_complex : forall eps x n balanced error, 0 <= eps -> (2 <= n)%nat -> 0 < power n x ->
  hessian_fd_arr eps (mkArr complex_kind x) n balanced error = hessian_fd eps x n balanced error.
Proof.
  intros eps v n balanced error He Hn _. unfold hessian_fd_arr. cbn [avals akind]. set (x := fun i => Cconj (normalize n v i)).
  destruct (tree_progable n n balanced TOP Hn (Nat.le_refl n)) as (t & m & Et & Es & Hp & _ & En & _).
  destruct (vector_unit_spec eps (fun i _ => x i) n 0 balanced TOP He Hn (or_introl eq_refl)) as (m' & p & w & y & Ev & _).
  assert (Em : m' = m).
  { unfold vector_unit in Ev. rewrite Et in Ev. cbn [obind] in Ev. rewrite Es in Ev. cbn [obind] in Ev.
    destruct (program_vector_unit eps (fun i _ => x i) n 0 m) as [[pp ww] |]; cbn [obind] in Ev; [| discriminate].
    apply Some_inj in Ev. apply (f_equal (fun r => fst (fst r))) in Ev. cbn [fst snd] in Ev. symmetry. exact Ev. }
  subst m'. unfold conj_unit. unfold x in Ev. rewrite Ev. fold x. cbn [obind fst snd]. destruct (n - 1)%nat eqn:E1; [reflexivity |].
  unfold matrix_fn_arr. cbn [iadd_0j akind obind avals]. rewrite (progable_matrix n TOP m _ x Hp). reflexivity.
Qed.
