(** Model of InSituBackpropLayer (circuit/forward.py:805-851) and of the measurement noise in in_situ_matrix_fn (forward.py:364-411).
    No proofs in this file.  haiku's parameter store is the argument [p] of a call; float precision (complex64) is ignored. *)
From Coq Require Import Reals List ZArith Bool.
From Verif Require Import Cx Arr Spec_circuit Model_coupling Model_forward Model_insitu Model_insitu2 Model_meshops.
Import ListNotations.
Local Open Scope R_scope.

(** forward.py:367-369, 388-390: amplitude and phase noise on one complex number; [ra], [rp] are the normal draws. *)
Definition noisy (amp ph ra rp : R) (z : C) : C := (RtoC (Rabs (Cabs z * (1 + amp * ra))) * cis (Carg z + ph * rp * PI))%C.
(** forward.py:364-370: matrix(params) with inputs = eye(n). *)
Definition noisy_matrix (m : mesh) (p : params) (amp ph : R) (ra rp : nat -> nat -> R) (i j : nat) : option C :=
  option_map (noisy amp ph (ra i j) (rp i j)) (matrix m false p i j).
(** forward.py:851: activation((matrix @ x.T).T); [x b] is row b of the batch; None: an exception. *)
Definition layer_call (act : (nat -> vec) -> nat -> vec) (m : mesh) (p : params) (amp ph : R) (ra rp : nat -> nat -> R) (x : nat -> vec) : option (nat -> vec) :=
  match noisy_matrix m p amp ph ra rp 0%nat 0%nat with
  | None => None
  | Some _ => Some (act (fun b i => Csum (n_rails m) (fun j => (match noisy_matrix m p amp ph ra rp i j with Some z => z | None => C0 end) * x b j)%C))
  end.
(** forward.py:829-831, 842-850: the mesh the layer uses and the parameters hk.get_parameter starts from. *)
Definition layer_mesh (m : mesh) (loss_db_std : R) (db dl : nat -> R * R) : option mesh := add_error_variance m 0 loss_db_std true db dl.
Definition layer_params (p : params) (set_gammas_zero : bool) : params := mkParams (thetas p) (phis p) (if set_gammas_zero then fun _ => 0 else gammas p).
(** forward.py:834-835: np.random is called when the function is traced; jit traces at the first call (all calls have the same shapes)
    and replays it.  [d k]: the draws of the k-th run of the Python body. *)
Definition draws_of_call {D : Type} (use_jit : bool) (d : nat -> D) (call : nat) : D := if use_jit then d 0%nat else d call.

(** forward.py:385-397: one tap with shot noise. *)
Definition tap_noisy (c d shot n1 n2 : R) (u v : C) : R := ((Cn2 u + shot * Cabs u * n1) - (Cn2 v + shot * Cabs v * n2)) / 2 / 2 * (c * d).
(** forward.py:376-397, 411 with all_analog=True, for the k columns of X; draws: [ra], [rp] for the adjoint inputs, [r1], [r2] (slice, rail, column)
    for the two power measurements. *)
Definition in_situ_bwd_noisy (m : mesh) (p : params) (k : nat) (X G : mat) (amp ph shot : R) (ra rp : nat -> nat -> R) (r1 r2 : nat -> nat -> nat -> R)
  : option (list R * list R * (nat -> R)) :=
  let n := n_rails m in
  let inorm := max_row_norm n k X in
  let gnorm := max_row_norm n k G in
  let one j :=
    let x' := vscal (/ inorm) (fun i => X i j) in
    let g' := vscal (/ gnorm) (fun i => G i j) in
    obind (matrix_fn m true p g') (fun a0 =>
    let a := fun i => noisy amp ph (ra i j) (rp i j) (a0 i) in
    obind (propagate m false true p (vaxpy x' (- Ci)%C (vconj a))) (fun s =>
    obind (propagate m false true p (vaxpy x' Ci (vconj a))) (fun d =>
    Some (map (fun t => let '(q, (u, v)) := t in fun r => tap_noisy inorm gnorm shot (r1 q r j) (r2 q r j) (u r) (v r)) (combine (seq 0 (length s)) (combine s d)))))) in
  obind (columns m) (fun cols =>
  obind (all_some (map one (seq 0 k))) (fun pws =>
  let pw := map (fun s r => Rsum k (fun j => nth s (nth j pws []) (fun _ => 0) r)) (seq 0 (4 * length cols + 2)) in
  Some (localize (map (fun nc => map top (nodes nc)) cols) pw))).

(** forward.py:404-409, 411: one tap with shot noise, all_analog=False; u, f, b: the combined, the forward and the backward amplitude. *)
Definition tap_digital_noisy (c d shot n1 n2 n3 : R) (u f b : C) : R :=
  ((Cn2 u + shot * Cabs u * n1) - (Cn2 f + shot * Cabs f * n2) - (Cn2 b + shot * Cabs b * n3)) / 2 * (c * d).
(** forward.py:399-409: the taps of one column of X; draws [r1], [r2], [r3] (slice, rail) for the three power measurements. *)
Definition digital_taps_noisy (m : mesh) (p : params) (c d shot : R) (x' g' : vec) (r1 r2 r3 : nat -> nat -> R) : option (list (nat -> R)) :=
  obind (propagate m false true p x') (fun forward =>
  obind (propagate m true true p g') (fun backward =>
  let adjoint := rev backward in
  let a := hd (fun _ => C0) adjoint in
  obind (propagate m false true p (vaxpy x' (- Ci)%C (vconj a))) (fun s =>
  Some (map (fun t => let '(q, (u, (f, b))) := t in fun r => tap_digital_noisy c d shot (r1 q r) (r2 q r) (r3 q r) (u r) (f r) (b r)) (combine (seq 0 (length s)) (combine s (combine forward adjoint))))))).
(** forward.py:376-382, 398-411 with all_analog=False, for the k columns of X. *)
Definition in_situ_bwd_digital_noisy (m : mesh) (p : params) (k : nat) (X G : mat) (shot : R) (r1 r2 r3 : nat -> nat -> nat -> R) : option (list R * list R * (nat -> R)) :=
  let n := n_rails m in
  let inorm := max_row_norm n k X in
  let gnorm := max_row_norm n k G in
  let one j := digital_taps_noisy m p inorm gnorm shot (vscal (/ inorm) (fun i => X i j)) (vscal (/ gnorm) (fun i => G i j))
    (fun q r => r1 q r j) (fun q r => r2 q r j) (fun q r => r3 q r j) in
  obind (columns m) (fun cols =>
  obind (all_some (map one (seq 0 k))) (fun pws =>
  let pw := map (fun s r => Rsum k (fun j => nth s (nth j pws []) (fun _ => 0) r)) (seq 0 (4 * length cols + 2)) in
  Some (localize (map (fun nc => map top (nodes nc)) cols) pw))).
