(** Model of simphox/circuit/vector.py and of cascade / bowtie in circuit/matrix.py (no proofs in this file).
    Simplifications: exact reals (no signed zeros, so np.angle(0) = 0); np.random draws are scaled by a zero standard
    deviation (the default), so add_error_variance adds zero; alpha/beta are carried but only used by rand_s. *)
From Coq Require Import Reals List ZArith Bool.
From Verif Require Import Cx Arr Model_coupling Model_forward.
Import ListNotations.
Local Open Scope R_scope.

(** CouplingNode(...) with the default loss and error (coupling.py:81-83). *)
Definition plain_node (id n t b al be : nat) (c : Z) : node := mkNode id (0, 0) (0, 0) n t b al be c.

(** vector.py:9-45 _tree, balanced=True.  [fuel] bounds the recursion depth; [None] = out of fuel, excluded by
    every theorem.  indices[:m-1], indices[m-1], indices[m:] are firstn, nth, skipn. *)
Fixpoint tree_rec (fuel : nat) (indices : list nat) (n_rails start : nat) (column : Z) : option (list node) :=
  match fuel with
  | O => None
  | S fuel =>
      let n := (length indices + 1)%nat in
      let m := (n / 2)%nat in
      if Nat.eqb n 1 then Some []
      else
        let top := firstn (m - 1) indices in
        let bottom := skipn m indices in
        obind (tree_rec fuel top n_rails start (column + 1)) (fun l1 =>
        obind (tree_rec fuel bottom n_rails (start + m) (column + 1)) (fun l2 =>
        Some (plain_node (nth (m - 1) indices 0%nat) n_rails (start + m - 1) (start + n - 1)
                         (length bottom + 1) (length top + 1) column :: l1 ++ l2)))
  end.

(** vector.py:31-35 _tree, balanced=False: [for i in reversed(range(n - 1))]. *)
Definition chain_nodes (n n_rails : nat) : list node :=
  map (fun i => plain_node i n_rails i (i + 1) 1 (n - i - 1) (Z.of_nat n - 2 - Z.of_nat i)) (rev (seq 0 (n - 1))).

(** vector.py:48-73 _butterfly *)
Fixpoint butterfly_rec (fuel n n_rails start : nat) (column : Z) : option (list node) :=
  match fuel with
  | O => None
  | S fuel =>
      let m := (n / 2)%nat in
      if Nat.eqb n 1 then Some []
      else
        obind (butterfly_rec fuel m n_rails start (column + 1)) (fun l1 =>
        obind (butterfly_rec fuel (n - m) n_rails (start + m) (column + 1)) (fun l2 =>
        Some (map (fun i => plain_node 0 n_rails (start + i) (start + m + i) (m + 1) (m + 1) column)
                  (rev (seq 0 m)) ++ l1 ++ l2)))
  end.

(** vector.py:76-90 tree.  np.arange(n - 1) = seq 0 (n - 1). *)
Definition tree (n n_rails : nat) (balanced : bool) (s : phase_style) : option mesh :=
  obind (if balanced then tree_rec n (seq 0 (n - 1)) n_rails 0 0 else Some (chain_nodes n n_rails)) (fun l =>
  obind (mk_mesh l s) (fun m => Some (invert_columns m))).

(** vector.py:93-105 butterfly.  butterfly(0) recurses forever in Python: [None] here. *)
Definition butterfly (n n_rails : nat) : option mesh :=
  obind (butterfly_rec n n n_rails 0 0) (fun l =>
  obind (mk_mesh l TOP) (fun m => Some (invert_columns m))).

(** forward.py:555-601 add_error_mean(e, l).add_error_variance(0, 0) with scalar e, l. *)
Definition set_errors (m : mesh) (e l : R) : option mesh :=
  add_error_mean m (map (fun _ => (e, e)) (bs_errors m)) (map (fun _ => (l, l)) (losses m)).

(** The loop state of _program_vector_unit: the matrix w (rails x columns), thetas and phis by node id. *)
Record pstate := mkP { pw : mat; pth : nat -> R; pph : nat -> R }.

(** vector.py:129-150: one iteration, for column mesh [nc] of [network]; [last] is the index of w's last column.
    theta, phi come from nc.parallel_nullify(w, network.mzi_terms) (forward.py:474-498), the elements from
    nc.parallel_mzi(theta, phi) (forward.py:539-543), which uses nc's own error arrays, by position. *)
Definition program_column (eps : R) (network nc : mesh) (last : nat) (st : pstate) : option pstate :=
  let w := pw st in
  obind (all_some (map (fun x => let '(t, b, k) := x in
      let terms := mzi_terms (err_at network k) in
      let theta := nullify_theta eps terms (w t last) (w b last) in
      obind (nullify_phi (style nc) terms theta (w t last) (w b last)) (fun phi => Some (k, theta, phi)))
    (triples nc))) (fun tp =>
  let els := map (fun x => let '((_, theta, phi), (e, l)) := x in parallel_mzi (style nc) false theta phi e l)
                 (combine tp (combine (bs_errors nc) (losses nc))) in
  let ix := combine (combine (map top (nodes nc)) (map bottom (nodes nc))) els in
  Some (mkP
    (fun i j => assign (fun r => w r j)
       (map (fun x => let '(t, b, q) := x in (t, t11 q * w t j + t21 q * w b j)%C) ix ++
        map (fun x => let '(t, b, q) := x in (b, t12 q * w t j + t22 q * w b j)%C) ix) i)
    (assign (pth st) (map (fun x => let '(k, theta, _) := x in (k, theta)) tp))
    (assign (pph st) (map (fun x => let '(k, _, phi) := x in (k, mod2pi phi)) tp)))).

Fixpoint program_columns (eps : R) (network : mesh) (ncs : list mesh) (last : nat) (st : pstate) : option pstate :=
  match ncs with
  | [] => Some st
  | nc :: r => obind (program_column eps network nc last st) (program_columns eps network r last)
  end.

(** vector.py:108-161 _program_vector_unit on an n x (last+1) array; returns (params, w).
    gammas: final_basis_vec is zero except in its last entry, np.angle(0) = 0 (vector.py:152-154).
    The pn / pnsn bookkeeping (141-148) is not modelled. *)
Definition program_vector_unit (eps : R) (v : mat) (n last : nat) (network : mesh) : option (params * mat) :=
  obind (columns network) (fun ncs =>
  obind (program_columns eps network ncs last (mkP v (fun _ => 0) (fun _ => 0))) (fun st =>
  Some (mkParams (pth st) (pph st)
          (fun i => if Nat.eqb i (n - 1) then - Carg (pw st (n - 1)%nat last) else 0), pw st))).

(** vector.py:164-185 vector_unit on an array with n rows and (last+1) columns. *)
Definition vector_unit (eps : R) (v : mat) (n last n_rails : nat) (balanced : bool) (s : phase_style) (e l : R)
  : option (mesh * params * mat) :=
  obind (tree n n_rails balanced s) (fun t =>
  obind (set_errors t e l) (fun network =>
  obind (program_vector_unit eps v n last network) (fun pw =>
  Some (network, fst pw, snd pw)))).

(** matrix.py:17-66 cascade on an n x n array u.  Loop state: w, the phases found so far (thetas, phis by global
    index), gammas (a list that grows at the front), num_columns, num_nodes and the subunits. *)
Record cstate := mkCS { cw : mat; cth : nat -> R; cph : nat -> R; cgam : list R;
                        cncol : Z; cnn : nat; csub : list mesh }.

Definition cascade_step (eps : R) (n_rails : nat) (balanced : bool) (s : phase_style) (e l : R)
  (i : nat) (st : cstate) : option cstate :=
  obind (vector_unit eps (cw st) (i + 1) i n_rails balanced s e l) (fun r =>
  let '(network, p, w) := r in
  let network' := offset_column (offset network (cnn st))
                    (if balanced then cncol st else 2 * (Z.of_nat n_rails - 1 - Z.of_nat i))%Z in
  Some (mkCS w
    (fun k => if Nat.ltb k (cnn st) then cth st k else thetas p (k - cnn st))
    (fun k => if Nat.ltb k (cnn st) then cph st k else phis p (k - cnn st))
    (gammas p i :: cgam st)
    (cncol st + num_columns network)
    (cnn st + length (nodes network))
    (csub st ++ [network']))).

Fixpoint cascade_loop (eps : R) (n_rails : nat) (balanced : bool) (s : phase_style) (e l : R)
  (is : list nat) (st : cstate) : option cstate :=
  match is with
  | [] => Some st
  | i :: r => obind (cascade_step eps n_rails balanced s e l i st) (cascade_loop eps n_rails balanced s e l r)
  end.

Definition cascade (eps : R) (u : mat) (n : nat) (balanced : bool) (s : phase_style) (e l : R)
  : option (mesh * params) :=
  obind (cascade_loop eps n balanced s e l (rev (seq 1 (n - 1)))
           (mkCS (fun i j => Cconj (u j i)) (fun _ => 0) (fun _ => 0) [] 0 0 [])) (fun st =>
  obind (aggregate (csub st)) (fun unit =>
  Some (unit, mkParams (cth st) (cph st) (fun k => nth k (- Carg (cw st 0%nat 0%nat) :: cgam st) 0)))).

(** matrix.py:69-104 triangular and tree_cascade with an array argument. *)
Definition triangular (eps : R) (u : mat) (n : nat) (s : phase_style) (e l : R) := cascade eps u n false s e l.
Definition tree_cascade (eps : R) (u : mat) (n : nat) (s : phase_style) (e l : R) := cascade eps u n true s e l.

(** matrix.py:188-217 _bowtie, the node list only: it does not depend on the entries of [u], only on its size
    (the blocks of [cs] are m, n-m, m, n-m wide with m = n // 2). *)
Fixpoint bowtie_rec (fuel n n_rails start : nat) (layer : Z) : option (list node) :=
  match fuel with
  | O => None
  | S fuel =>
      let m := (n / 2)%nat in
      if Nat.eqb n 1 then Some []
      else
        obind (bowtie_rec fuel m n_rails start (layer - Z.of_nat m)) (fun l0 =>
        obind (bowtie_rec fuel m n_rails start (layer + Z.of_nat m)) (fun r0 =>
        obind (bowtie_rec fuel (n - m) n_rails (start + m) (layer - Z.of_nat m)) (fun l1 =>
        obind (bowtie_rec fuel (n - m) n_rails (start + m) (layer + Z.of_nat m)) (fun r1 =>
        Some (map (fun shift => plain_node 0 n_rails (start + shift) (start + shift + m) 1 1 layer) (seq 0 m)
              ++ l0 ++ r0 ++ l1 ++ r1)))))
  end.
Definition bowtie_nodes (n : nat) : option (list node) := bowtie_rec n n n 0 (Z.of_nat n - 2).
