(** Model of ForwardMesh.in_situ_matrix_fn's backward rule and phase_shift_localize (circuit/forward.py:347-415, 523-537),
    without noise (all standard deviations 0, the defaults) and for one input vector.  No proofs in this file.
    The numpy branch of propagate_matrix_fn is used in place of the jax one: they agree by C162_same_partial. *)
From Coq Require Import Reals List ZArith Bool.
From Verif Require Import Cx Arr Spec_circuit Model_coupling Model_forward.
Import ListNotations.
Local Open Scope R_scope.

(** numpy/jax: real scalar times array, conjugate, a + z b. *)
Definition vscal (c : R) (v : vec) : vec := fun i => (RtoC c * v i)%C.
Definition vconj (v : vec) : vec := fun i => Cconj (v i).
Definition vaxpy (x : vec) (z : C) (y : vec) : vec := fun i => (x i + z * y i)%C.
(** jnp.linalg.norm of a vector of length n. *)
Definition vnorm (n : nat) (v : vec) : R := sqrt (power n v).

(** forward.py:523-537 phase_shift_localize, ndim == 2: [pw] is the list of slices (a function of the rail each);
    the theta entries are read before the theta shifters of column i, the phi entries at its entry, always on the
    top rails. *)
Definition localize (tops : list (list nat)) (pw : list (nat -> R)) : list R * list R * (nat -> R) :=
  let at_slice k := map (fun it => let '(i, ts) := it in map (nth (i * 4 + k) pw (fun _ => 0)) ts)
                        (combine (seq 0 (length tops)) tops) in
  (concat (at_slice 2%nat), concat (at_slice 0%nat), last pw (fun _ => 0)).

(** forward.py:389-392, 399, 413: the measured quantity of one tap from the two fields u = "sum" and v = "diff"
    (rescaled by the two norms c and d). *)
Definition tap (c d : R) (u v : C) : R := (Cn2 u - Cn2 v) / 2 / 2 * (c * d).

(** forward.py:377-413 matrix_bwd with all_analog=True: three forward propagations and one backward pass.
    The result is (d theta, d phi, d gamma), d theta and d phi in COLUMN order, and the adjoint input. *)
Definition in_situ_bwd (m : mesh) (p : params) (x g : vec) : option (list R * list R * (nat -> R) * vec) :=
  let n := n_rails m in
  let inorm := vnorm n x in
  let gnorm := vnorm n g in
  let x' := vscal (/ inorm) x in
  let g' := vscal (/ gnorm) g in
  obind (matrix_fn m true p g') (fun a =>
  obind (propagate m false true p (vaxpy x' (- Ci)%C (vconj a))) (fun s =>
  obind (propagate m false true p (vaxpy x' Ci (vconj a))) (fun d =>
  obind (columns m) (fun cols =>
  let pw := map (fun sd => let '(u, v) := sd in fun r => tap inorm gnorm (u r) (v r)) (combine s d) in
  Some (localize (map (fun nc => map top (nodes nc)) cols) pw, a))))).

(** The same for a matrix of k inputs, the columns of X (forward.py:366, 524-529; InSituBackpropLayer calls it with
    X = eye, forward.py:851).  inorm and gnorm are the largest row norms (379-380).  The model propagates one column
    at a time, and sums over the batch before reading out the rails instead of after: both are numpy-elementwise. *)
Definition max_row_norm (n k : nat) (X : mat) : R :=
  fold_right Rmax 0 (map (fun i => sqrt (Rsum k (fun j => Cn2 (X i j)))) (seq 0 n)).
Definition in_situ_bwd_batch (m : mesh) (p : params) (k : nat) (X G : mat) : option (list R * list R * (nat -> R)) :=
  let n := n_rails m in
  let inorm := max_row_norm n k X in
  let gnorm := max_row_norm n k G in
  let one j :=
    let x' := vscal (/ inorm) (fun i => X i j) in
    let g' := vscal (/ gnorm) (fun i => G i j) in
    obind (matrix_fn m true p g') (fun a =>
    obind (propagate m false true p (vaxpy x' (- Ci)%C (vconj a))) (fun s =>
    obind (propagate m false true p (vaxpy x' Ci (vconj a))) (fun d =>
    Some (map (fun sd => let '(u, v) := sd in fun r => tap inorm gnorm (u r) (v r)) (combine s d))))) in
  obind (columns m) (fun cols =>
  obind (all_some (map one (seq 0 k))) (fun pws =>
  let pw := map (fun s r => Rsum k (fun j => nth s (nth j pws []) (fun _ => 0) r)) (seq 0 (4 * length cols + 2)) in
  Some (localize (map (fun nc => map top (nodes nc)) cols) pw))).
