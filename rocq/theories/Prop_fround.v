(** C157: rounding errors of the mesh's matrix. *)
From Coq Require Import Reals Lra Lia List ZArith Bool.
From Verif Require Import Cx Arr Spec_circuit Model_coupling Model_forward Spec_mesh Proof_forward Proof_forward4 Model_fround Spec_fround Proof_fround Proof_fround2.
Import ListNotations.
Local Open Scope R_scope.

(** If each machine operation is off by at most the fraction d of its result plus u, and the elements of the nodes and the output phase
    factors are computed within e, the computed output of a mesh of C columns is within about 4 (C + 1) (e + 3 d) times the input
    amplitude of the true one: the error grows linearly with the depth, not with the number of nodes. *)
Theorem C157_rounding : forall a d u e m back p el eg x y y', arith_ok d u a -> 0 <= e -> wf_mesh m -> attenuating m ->
  (forall nd, In nd (nodes m) -> near_quad e (el (node_id nd)) (parallel_mzi (style m) back (thetas p (node_id nd)) (phis p (node_id nd)) (err_at m (node_id nd)) (loss_at m (node_id nd)))) ->
  (forall i, (i < n_rails m)%nat -> Cabs (eg i - cis (gammas p i))%C <= e) ->
  matrix_fn m back p x = Some y -> matrix_fn_fl a m back el eg x = Some y' ->
  let K := (1 + e) * (1 + d) ^ 3 - 1 in let L := INR (Datatypes.S (Z.to_nat (num_columns m))) in
  4 * K * L <= 1 ->
  sqrt (power (n_rails m) (fun i => y' i - y i)%C) <= 4 * K * L * sqrt (power (n_rails m) x) + 2 * L * (2 * (1 + d) ^ 2 + (1 + d) + 1) * u * sqrt (INR (n_rails m)).
Proof. exact mesh_round. Qed.
Print Assumptions C157_rounding.
(** The machine's arithmetic meets the hypothesis: with complex128 arrays to 3 units in the 53rd bit ... *)
Theorem C157_complex128 : arith_ok (3 / 2 ^ 53) (powerRZ 2 (-1072)) b64_arith.
Proof. exact ok64. Qed.
Print Assumptions C157_complex128.
(** ... but with the default inputs of matrix(), which are complex64, only to single precision: every column's outputs are rounded to 24 bits. *)
Theorem C157_complex64 : arith_ok (/ 2 ^ 24) (powerRZ 2 (-149)) b64_b32_arith.
Proof. exact ok32. Qed.
Print Assumptions C157_complex64.
(** With exact arithmetic nothing is lost: this is the matrix function of the other theorems. *)
Theorem C157_exact : forall m back p x,
  matrix_fn_fl exact_arith m back (fun k => parallel_mzi (style m) back (thetas p k) (phis p k) (err_at m k) (loss_at m k)) (fun i => cis (gammas p i)) x = matrix_fn m back p x.
Proof. exact exact_same. Qed.
Print Assumptions C157_exact.
(** A lossy one-node mesh with imperfect splitters, in single precision with elements good to 1/1000. *)
Example C157_nonvacuous : let m := mesh1 DIFFERENTIAL (1/10, 0) (-3, -1/2) in let p := pconst 1 2 in
  let el := fun k => parallel_mzi (style m) true (thetas p k) (phis p k) (err_at m k) (loss_at m k) in
  wf_mesh m /\ attenuating m /\ (forall nd, In nd (nodes m) -> near_quad (1/1000) (el (node_id nd)) (el (node_id nd))) /\
  4 * ((1 + 1/1000) * (1 + / 2 ^ 24) ^ 3 - 1) * INR (Datatypes.S (Z.to_nat (num_columns m))) <= 1 /\
  exists y y', matrix_fn m true p (basis 0) = Some y /\ matrix_fn_fl b64_b32_arith m true el (fun i => cis (gammas p i)) (basis 0) = Some y'.
Proof.
  cbv zeta. split; [apply mesh1_wf |]. split; [repeat constructor; simpl; lra |]. split.
  { intros nd _. repeat split; match goal with |- Cabs ?t <= _ => replace t with C0 by ring end; rewrite Cabs_C0; lra. }
  split.
  { replace (num_columns (mesh1 DIFFERENTIAL (1 / 10, 0) (-3, -1 / 2))) with 1%Z by reflexivity. change (Z.to_nat 1) with 1%nat. cbn [INR]. lra. }
  destruct (wf_matrix_total _ true (pconst 1 2) (basis 0) (mesh1_wf DIFFERENTIAL (1 / 10, 0) (-3, -1 / 2))) as [y Hy]. exists y. pose proof Hy as Hy0.
  unfold matrix_fn in Hy. unfold matrix_fn_fl. destruct (columns _); [| discriminate]. destruct (forallb _ _); [| discriminate].
  eexists. split; [exact Hy0 |]. reflexivity.
Qed.
