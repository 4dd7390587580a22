(** Model of ForwardMesh.in_situ_matrix_fn's backward rule with all_analog=False (circuit/forward.py:377-383, 400-413),
    without noise, for one input vector and for a batch.  No proofs in this file.
    The numpy branch of propagate_matrix_fn is used in place of the jax one. *)
From Coq Require Import Reals List ZArith Bool.
From Verif Require Import Cx Arr Spec_circuit Model_coupling Model_forward Model_insitu.
Import ListNotations.
Local Open Scope R_scope.

(** forward.py:405-409, 413: one tap from the three fields u = "sum", f = "forward", b = "adjoint". *)
Definition tap_digital (c d : R) (u f b : C) : R := (Cn2 u - Cn2 f - Cn2 b) / 2 * (c * d).

(** forward.py:400-409: the slices of one input x' and cotangent g' (already divided by the norms c, d): one forward, one backward and one
    forward propagation; [::-1] on the backward slices, whose first entry is then adjoint_inputs. *)
Definition digital_taps (m : mesh) (p : params) (c d : R) (x' g' : vec) : option (list (nat -> R) * vec) :=
  obind (propagate m false true p x') (fun forward =>
  obind (propagate m true true p g') (fun backward =>
  let adjoint := rev backward in
  let a := hd (fun _ => C0) adjoint in
  obind (propagate m false true p (vaxpy x' (- Ci)%C (vconj a))) (fun s =>
  Some (map (fun t => let '(u, (f, b)) := t in fun r => tap_digital c d (u r) (f r) (b r)) (combine s (combine forward adjoint)), a)))).

(** forward.py:377-413 matrix_bwd with all_analog=False. *)
Definition in_situ_bwd_digital (m : mesh) (p : params) (x g : vec) : option (list R * list R * (nat -> R) * vec) :=
  let n := n_rails m in
  let inorm := vnorm n x in
  let gnorm := vnorm n g in
  obind (digital_taps m p inorm gnorm (vscal (/ inorm) x) (vscal (/ gnorm) g)) (fun t =>
  obind (columns m) (fun cols => Some (localize (map (fun nc => map top (nodes nc)) cols) (fst t), snd t))).

(** The same for a matrix of k inputs, with the simplifications of [in_situ_bwd_batch]. *)
Definition in_situ_bwd_digital_batch (m : mesh) (p : params) (k : nat) (X G : mat) : option (list R * list R * (nat -> R)) :=
  let n := n_rails m in
  let inorm := max_row_norm n k X in
  let gnorm := max_row_norm n k G in
  let one j := obind (digital_taps m p inorm gnorm (vscal (/ inorm) (fun i => X i j)) (vscal (/ gnorm) (fun i => G i j))) (fun t => Some (fst t)) in
  obind (columns m) (fun cols =>
  obind (all_some (map one (seq 0 k))) (fun pws =>
  let pw := map (fun s r => Rsum k (fun j => nth s (nth j pws []) (fun _ => 0) r)) (seq 0 (4 * length cols + 2)) in
  Some (localize (map (fun nc => map top (nodes nc)) cols) pw))).
