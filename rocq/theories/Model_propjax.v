(** Model of simphox/circuit/forward.py propagate_matrix_fn with use_jax=True.  No proofs in this file.
    Simplifications: exact arithmetic; one input vector (the columns of a batch do not interact); the final squeeze is dropped;
    jax's clamping of out-of-range indices is not modelled (they give [None], as in numpy). *)
From Coq Require Import Reals List ZArith Bool.
From Verif Require Import Cx Arr Model_coupling Model_forward Model_null.
Import ListNotations.
Local Open Scope R_scope.

(** forward.py:768-775 _parallel_multiply, jax branch: the phase is multiplied by the 0/1 mask inside the exponential, and
    [v.at[idx].set] may apply its writes in any order. *)
Definition parallel_multiply_jax (order : list (nat * C) -> list (nat * C)) (s : phase_style) (ph : nat -> R)
  (idx : list (nat * nat * nat * bool)) (v : vec) : option vec :=
  match s with
  | TOP => Some (assign v (order (map (fun x => let '(t, b, k, mk) := x in (t, v t * cis (ph k * b2R mk))%C) idx)))
  | BOTTOM => Some (assign v (order (map (fun x => let '(t, b, k, mk) := x in (b, v b * cis (ph k * b2R mk))%C) idx)))
  | _ => None
  end.

(** forward.py:780-803 _parallel_propagate, use_jax=True. *)
Definition parallel_propagate_jax (order : list (nat * C) -> list (nat * C)) (s : phase_style) (back : bool) (p : params)
  (left right : nat -> quad) (idx : list (nat * nat * nat * bool)) (v : vec) : option (list vec) :=
  if back then
    let v1 := parallel_transform_jax order right idx v in
    obind (parallel_multiply_jax order s (thetas p) idx v1) (fun v2 =>
    let v3 := parallel_transform_jax order left idx v2 in
    obind (parallel_multiply_jax order s (phis p) idx v3) (fun v4 => Some [v1; v2; v3; v4]))
  else
    obind (parallel_multiply_jax order s (phis p) idx v) (fun v1 =>
    let v2 := parallel_transform_jax order left idx v1 in
    obind (parallel_multiply_jax order s (thetas p) idx v2) (fun v3 =>
    let v4 := parallel_transform_jax order right idx v3 in Some [v1; v2; v3; v4])).

(** forward.py:321 lax.scan(parallel_propagate, outputs, all_idx) *)
Fixpoint scan_jax (order : list (nat * C) -> list (nat * C)) (s : phase_style) (back : bool) (p : params)
  (left right : nat -> quad) (idxs : list (list (nat * nat * nat * bool))) (v : vec) : option (list vec) :=
  match idxs with
  | [] => Some []
  | i :: r =>
      obind (parallel_propagate_jax order s back p left right i v) (fun sl =>
      obind (scan_jax order s back p left right r (last sl v)) (fun rest => Some (sl ++ rest)))
  end.

(** forward.py:270-340 propagate_matrix_fn(back, column_cutoff, explicit, use_jax=True): all columns are scanned whatever the
    cut-off (321), but the gammas depend on it (301, 336).  explicit=False: _parallel_transform is called with the arguments
    phase_style and back (319), which it does not accept (742): TypeError. *)
Definition propagate_jax (order : list (nat * C) -> list (nat * C)) (m : mesh) (back explicit : bool) (cutoff : option Z)
  (p : params) (x : vec) : option (list vec) :=
  if explicit then
    obind (columns m) (fun cols =>
      let cut := cut_of m back cutoff in
      let idxs := map triples (if back then rev cols else cols) in
      if forallb (idx_ok (n_rails m) (length (bs_errors m))) idxs then
        let head := if (back && Z.eqb cut (-1))%bool then [x; apply_gammas (gammas p) x] else [x] in
        let start := last head x in
        obind (scan_jax order (style m) back p (fun k => parallel_dc false (err_at m k) (loss_at m k))
                 (fun k => parallel_dc true (err_at m k) (loss_at m k)) (padded_idx (n_rails m) idxs) start)
          (fun sl =>
             let fin := last sl start in
             Some (head ++ sl ++ (if (negb back && Z.eqb cut (num_columns m))%bool then [apply_gammas (gammas p) fin] else [])))
      else None)
  else None.
