(** C13-C15: matrix.py cascade / triangular / tree_cascade. *)
From Coq Require Import Reals Lra Lia List ZArith Permutation.
From Verif Require Import Cx Arr Spec_circuit Spec_mesh Model_coupling Model_forward Model_vector Proof_cascade2.
Import ListNotations.
Local Open Scope R_scope.

(** C13: the matrix of triangular(u) (balanced = false) and tree_cascade(u) (balanced = true) is u: in exact arithmetic
    with the regulariser eps of direct_transmissivity (np.spacing(1) = 2^-52 in the code) each row differs from the row
    of u by at most n (n-1) eps in squared norm, and by nothing at all if eps = 0. *)
Theorem C13_realises : forall eps u n balanced, 0 <= eps -> (2 <= n)%nat -> unitary n u ->
  exists m p P, cascade eps u n balanced TOP 0 0 = Some (m, p) /\ n_rails m = n /\
    (forall i j, matrix m false p i j = Some (P i j)) /\ unitary n P /\
    (forall r, (r < n)%nat -> Rsum n (fun c => Cn2 (P r c - u r c)%C) <= INR (n * (n - 1)) * eps).
Proof. exact cascade_realises. Qed.
Print Assumptions C13_realises.
Theorem C13_exact : forall u n balanced, (2 <= n)%nat -> unitary n u ->
  exists m p, cascade 0 u n balanced TOP 0 0 = Some (m, p) /\ n_rails m = n /\
    forall i j, (i < n)%nat -> (j < n)%nat -> matrix m false p i j = Some (u i j).
Proof. exact cascade_exact. Qed.
Print Assumptions C13_exact.
Example C13_nonvacuous : unitary 5 ident.
Proof. exact (ident_unitary 5). Qed.

(** C14, full statement: cascade(u, phase_style=s) returns a mesh of style s realising u.  FALSE: the returned mesh has
    style TOP whatever was asked for, and for BOTTOM and u = 1 its matrix has a nonpositive first entry. *)
Theorem C14_style_is_always_top : forall eps u n balanced s e l m p, cascade eps u n balanced s e l = Some (m, p) -> style m = TOP.
Proof. exact cascade_style. Qed.
Print Assumptions C14_style_is_always_top.
Theorem C14_phase_style_refuted : forall eps, 0 <= eps ->
  unitary 2 ident /\ exists m p y, cascade eps ident 2 true BOTTOM 0 0 = Some (m, p) /\ style m <> BOTTOM /\
  matrix_fn m false p (basis 0) = Some y /\ re (y 0%nat) <= 0 /\ re (ident 0%nat 0%nat) = 1.
Proof.
  intros eps He. split; [apply ident_unitary |]. destruct (bottom_identity eps He) as (m & p & y & E & H1 & H2).
  exists m, p, y. split; [exact E |]. split; [rewrite (cascade_style _ _ _ _ _ _ _ _ _ E); discriminate |].
  split; [exact H1 |]. split; [exact H2 | reflexivity].
Qed.
Print Assumptions C14_phase_style_refuted.

(** C15 (u need not be unitary for the geometry). *)
Theorem C15_structure : forall eps u n balanced s, 0 <= eps -> s = TOP \/ s = BOTTOM -> (2 <= n)%nat ->
  exists m p, cascade eps u n balanced s 0 0 = Some (m, p) /\ n_rails m = n /\ wf_mesh m /\
    (2 * length (nodes m) = n * (n - 1))%nat /\
    Permutation (map node_id (nodes m)) (seq 0 (length (nodes m))) /\
    (forall nd, In nd (nodes m) -> (top nd < bottom nd < n)%nat /\ (0 <= column nd < num_columns m)%Z) /\
    (balanced = false -> num_columns m = Z.of_nat (2 * n - 3)).
Proof. exact cascade_structure. Qed.
Print Assumptions C15_structure.
(** The two public constructors: triangular(u) has depth 2n - 3, tree_cascade(u) the sum of the depths ceil(log2(i + 1)) of its trees. *)
Theorem C15_named : forall u n, (2 <= n)%nat -> unitary n u -> exists m p m2 p2,
  triangular 0 u n TOP 0 0 = Some (m, p) /\ tree_cascade 0 u n TOP 0 0 = Some (m2, p2) /\
  (forall i j, (i < n)%nat -> (j < n)%nat -> matrix m false p i j = Some (u i j) /\ matrix m2 false p2 i j = Some (u i j)) /\
  num_columns m = Z.of_nat (2 * n - 3) /\
  num_columns m2 = Z.of_nat (list_sum (map (fun i => Nat.log2_up (i + 1)) (seq 1 (n - 1)))).
Proof. exact named_meshes. Qed.
Print Assumptions C15_named.
