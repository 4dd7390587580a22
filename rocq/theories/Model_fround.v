(** Model of matrix_fn (numpy) in arithmetic with rounding: simphox/circuit/forward.py.  No proofs in this file. *)
From Coq Require Import Reals List Arith ZArith Bool.
From Verif Require Import Cx Arr Model_coupling Model_forward.
Import ListNotations.
Local Open Scope R_scope.

(** The complex arithmetic of the machine: products, sums, and the conversion to the type of the array that is written to
    (forward.py:202: complex64 for the default inputs). *)
Record arith := mkArith { amul : C -> C -> C; aadd : C -> C -> C; astore : C -> C }.
(** forward.py:742-765 _parallel_transform, numpy branch: s11 * _top + s21 * _bottom, s12 * _top + s22 * _bottom, written into v. *)
Definition parallel_transform_fl (a : arith) (el : nat -> quad) (idx : list (nat * nat * nat)) (v : vec) : vec :=
  assign v
    (map (fun x => let '(t, b, k) := x in (t, astore a (aadd a (amul a (t11 (el k)) (v t)) (amul a (t21 (el k)) (v b))))) idx ++
     map (fun x => let '(t, b, k) := x in (b, astore a (aadd a (amul a (t12 (el k)) (v t)) (amul a (t22 (el k)) (v b))))) idx).
(** forward.py:213-214, 224-225: (exp(1j * gammas) * outputs.T).T; [eg]: the computed exponentials. *)
Definition apply_gammas_fl (a : arith) (eg : nat -> C) (v : vec) : vec := fun i => amul a (eg i) (v i).
(** forward.py:172-228 matrix_fn (use_jax=False), on one input vector; [el]: the computed elements of the nodes. *)
Definition matrix_fn_fl (a : arith) (m : mesh) (back : bool) (el : nat -> quad) (eg : nat -> C) (x : vec) : option vec :=
  match columns m with
  | None => None
  | Some cols =>
      let idxs := map triples (if back then rev cols else cols) in
      if forallb (idx_ok (n_rails m) (length (bs_errors m))) idxs then
        let x := if back then apply_gammas_fl a eg x else x in
        let y := fold_left (fun v idx => parallel_transform_fl a el idx v) idxs x in
        Some (if back then y else apply_gammas_fl a eg y)
      else None
  end.
