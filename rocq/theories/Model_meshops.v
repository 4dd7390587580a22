(** Model of the remaining mesh operations of simphox/circuit/forward.py and matrix.py (no proofs in this file). *)
From Coq Require Import Reals List ZArith Bool.
From Verif Require Import Cx Arr Model_coupling Model_forward Model_rect.
Import ListNotations.
Local Open Scope R_scope.

(** forward.py:545-553 column_ordered: aggregate of the column meshes. *)
Definition column_ordered (m : mesh) : option mesh := obind (columns m) aggregate.

(** forward.py:132-149 with 52-55: what aggregate does to its arguments.  The new mesh holds the argument meshes' node objects, so
    the in-place renumbering reaches them; their cached attributes stay.  The arguments are distinct objects. *)
Definition set_nodes (m : mesh) (l : list node) : mesh :=
  mkMesh l (style m) (node_idxs m) (n_rails m) (bs_errors m) (losses m) (column_by_node m) (num_columns m).
Fixpoint reassign (ms : list mesh) (l : list node) : list mesh :=
  match ms with
  | [] => []
  | m :: r => set_nodes m (firstn (length (nodes m)) l) :: reassign r (skipn (length (nodes m)) l)
  end.
Definition aggregate_effect (ms : list mesh) : list mesh := reassign ms (renumber (concat (map nodes ms))).

(** forward.py:577-601 add_error_variance.  [db], [dl]: the standard normal draws, one pair per node in list order. *)
Definition perturb (std : R) (v d : R * R) : R * R := (fst v + std * fst d, snd v + std * snd d).
Definition add_error_variance (m : mesh) (bs_std loss_std : R) (equal : bool) (db dl : nat -> R * R) : option mesh :=
  let err i := let d := db i in perturb bs_std (nth i (bs_errors m) (0, 0)) (if equal then (fst d, fst d) else d) in
  let ls i := perturb loss_std (nth i (losses m) (0, 0)) (dl i) in
  add_error_mean m (map err (seq 0 (length (bs_errors m)))) (map ls (seq 0 (length (losses m)))).

(** forward.py:508-522 phases.  [d], [dg]: the normal draws; thetas and phis get the same draws. *)
Definition phases (p : params) (error : R) (constant gamma_error : bool) (d dg : nat -> R) : params :=
  let e i := if constant then error else error * d i in
  let g i := if constant then error else error * dg i in
  mkParams (fun i => thetas p i + e i) (fun i => phis p i + e i) (fun i => gammas p i + g i * (if gamma_error then 1 else 0)).

(** forward.py:539-543 ForwardMesh.parallel_mzi: both defaults are [self.params[0]]. *)
Definition mesh_parallel_mzi (m : mesh) (p : params) (ts fs : option (nat -> R)) (st : option phase_style) (back : bool) : nat -> quad :=
  fun k => parallel_mzi (match st with Some s => s | None => style m end) back
    (match ts with Some t => t k | None => thetas p k end) (match fs with Some f => f k | None => thetas p k end) (err_at m k) (loss_at m k).

(** matrix.py:249-260 psvd.  scipy's svd of an m x n matrix is a parameter. *)
Definition psvd (svd : nat -> nat -> mat -> mat * (nat -> R) * mat) (m n : nat) (a : mat)
  : option ((mesh * params) * (nat -> R) * (mesh * params)) :=
  let '(l, d, r) := svd m n a in
  match rectangular m l, rectangular n r with Some x, Some y => Some (x, d, y) | _, _ => None end.

(** ** The params property, forward.py:500-506, over a heap of arrays. *)
Definition heap := nat -> nat -> R.
Record prefs := mkRefs { r_thetas : nat; r_phis : nat; r_gammas : nat }.
Definition deref (h : heap) (r : prefs) : params := mkParams (h (r_thetas r)) (h (r_phis r)) (h (r_gammas r)).
Definition hwrite (h : heap) (a : nat) (x : nat -> R) : heap := fun b => if Nat.eqb b a then x else h b.
(** The getter copies into three new arrays [next], [next + 1], [next + 2]. *)
Definition get_params (h : heap) (next : nat) (r : prefs) : heap * nat * prefs :=
  (hwrite (hwrite (hwrite h next (h (r_thetas r))) (next + 1) (h (r_phis r))) (next + 2) (h (r_gammas r)), (next + 3)%nat,
   mkRefs next (next + 1) (next + 2)).
(** The setter stores the caller's arrays. *)
Definition set_params (r : prefs) (caller : prefs) : prefs := caller.
(** forward.py:471-472: program_by_null_basis writes into the arrays the mesh holds. *)
Definition program_inplace (h : heap) (r : prefs) (p : params) : heap := hwrite (hwrite h (r_thetas r) (thetas p)) (r_phis r) (phis p).
(** forward.py:829-831 InSituBackpropLayer.__init__ with set_gammas_zero: the caller's mesh gets a new gammas array of zeros, then
    the layer's own mesh is an add_error_variance copy of it. *)
Definition insitu_layer_init (h : heap) (next : nat) (r : prefs) (set_gammas_zero : bool) : heap * nat * prefs * prefs :=
  let '(h1, n1, r1) := if set_gammas_zero then (hwrite h next (fun _ => 0), (next + 1)%nat, mkRefs (r_thetas r) (r_phis r) next)
                       else (h, next, r) in
  let '(h2, n2, r2) := get_params h1 n1 r1 in (h2, n2, r1, r2).
