(** Model of the column cut-offs of simphox/circuit/forward.py propagate_matrix_fn and of nullification_basis and
    program_by_null_basis.  No proofs in this file.
    Simplifications: exact arithmetic ([eps] stands for np.spacing(1)); the cast of the input to complex64 is dropped. *)
From Coq Require Import Reals List ZArith Bool.
From Verif Require Import Cx Arr Model_coupling Model_forward.
Import ListNotations.
Local Open Scope R_scope.

(** nc.column_by_node[0] (forward.py:324, 326, 451, 469); a column mesh is never empty. *)
Definition col_label (nc : mesh) : Z := hd 0%Z (column_by_node nc).
(** forward.py:285-286 *)
Definition cut_of (m : mesh) (back : bool) (cutoff : option Z) : Z :=
  match cutoff with Some c => c | None => if back then (-1)%Z else num_columns m end.
(** forward.py:324-327 *)
Definition skipped (m : mesh) (back : bool) (cut : Z) (nc : mesh) : bool :=
  if back then Z.ltb (num_columns m - cut) (col_label nc) else Z.leb cut (col_label nc).
(** forward.py:270-340 propagate_matrix_fn with use_jax=False and a column_cutoff: the list of slices. *)
Definition propagate_cut (m : mesh) (back explicit : bool) (cutoff : option Z) (p : params) (x : vec) : option (list vec) :=
  obind (columns m) (fun cols =>
    let cut := cut_of m back cutoff in
    let idxs := map triples (filter (fun nc => negb (skipped m back cut nc)) (if back then rev cols else cols)) in
    if forallb (idx_ok (n_rails m) (length (bs_errors m))) idxs then
      let head := if (back && Z.eqb cut (-1))%bool then [x; apply_gammas (gammas p) x] else [x] in
      let start := last head x in
      obind (if explicit
             then prop_explicit (style m) back p (fun k => parallel_dc false (err_at m k) (loss_at m k))
                                (fun k => parallel_dc true (err_at m k) (loss_at m k)) idxs start
             else Some (prop_implicit (mzis m back p) idxs start))
        (fun sl =>
           let fin := last sl start in
           Some (head ++ sl ++ (if (negb back && Z.eqb cut (num_columns m))%bool then [apply_gammas (gammas p) fin] else [])))
    else None).

(** forward.py:446-447: vector[nc.bottom] = 1 *)
Definition bottom_ones (nc : mesh) : vec := fun i => if existsb (Nat.eqb i) (map bottom (nodes nc)) then C1 else C0.
(** forward.py:434-454 nullification_basis: one vector per column. *)
Definition nullification_basis (m : mesh) (p : params) : option (list vec) :=
  obind (columns m) (fun cols =>
    all_some (map (fun nc =>
      obind (propagate_cut m true false (Some (num_columns m - col_label nc)%Z) p (bottom_ones nc))
        (fun sl => let v := last sl (bottom_ones nc) in Some (fun i => Cconj (v i)))) cols)).

(** forward.py:468-472, one iteration; parallel_nullify (474-498) reads the vector on the column's rails and self.mzi_terms. *)
Definition null_step (eps : R) (m : mesh) (p : params) (nc : mesh) (w : vec) : option params :=
  obind (propagate_cut m false false (Some (col_label nc)) p w) (fun sl =>
    let v := last sl w in
    if idx_ok (n_rails m) (length (bs_errors m)) (triples nc) then
      obind (all_some (map (fun x => let '(t, b, k) := x in
          let terms := mzi_terms (err_at m k) in
          let theta := nullify_theta eps terms (v t) (v b) in
          obind (nullify_phi (style nc) terms theta (v t) (v b)) (fun phi => Some (k, theta, phi)))
        (triples nc))) (fun tp =>
      Some (mkParams (assign (thetas p) (map (fun x => let '(k, theta, _) := x in (k, theta)) tp))
                     (assign (phis p) (map (fun x => let '(k, _, phi) := x in (k, mod2pi phi)) tp)) (gammas p)))
    else None).
Fixpoint null_steps (eps : R) (m : mesh) (p : params) (l : list (mesh * vec)) : option params :=
  match l with [] => Some p | (nc, w) :: r => obind (null_step eps m p nc w) (fun p' => null_steps eps m p' r) end.
(** forward.py:456-472 program_by_null_basis, starting from the parameters [p]. *)
Definition program_by_null_basis (eps : R) (m : mesh) (p : params) (ws : list vec) : option params :=
  obind (columns m) (fun cols => null_steps eps m p (combine cols ws)).
