(** Model of hessian_vector_unit and hessian_fd in simphox/circuit/vector.py and of the power bookkeeping they use.  No proofs in this file.
    Simplifications: exact reals; the vector is a 1-D array of length n; only the default phase style TOP, no errors, no losses
    (balanced_tree / unbalanced_tree with their defaults, vector.py:188-223). *)
From Coq Require Import Reals List ZArith Bool Arith.
From Verif Require Import Cx Arr Model_coupling Model_forward Model_vector.
Import ListNotations.
Local Open Scope R_scope.

(** vector.py:141-148, one column: network.pnsn[node_idxs] = |top|^2 before, network.pn[node_idxs] = |w[bottom]|^2 after the column
    (style TOP); [st], [st'] are the loop states before and after, [q] = (pn, pnsn). *)
Definition power_column (nc : mesh) (last : nat) (st st' : pstate) (q : (nat -> R) * (nat -> R)) : (nat -> R) * (nat -> R) :=
  (assign (fst q) (map (fun nd => (node_id nd, Cn2 (pw st' (bottom nd) last))) (nodes nc)),
   assign (snd q) (map (fun nd => (node_id nd, Cn2 (pw st (top nd) last))) (nodes nc))).
(** vector.py:129-150: the loop with the bookkeeping. *)
Fixpoint power_columns (eps : R) (network : mesh) (ncs : list mesh) (last : nat) (st : pstate) (q : (nat -> R) * (nat -> R))
  : option ((nat -> R) * (nat -> R)) :=
  match ncs with
  | [] => Some q
  | nc :: r => obind (program_column eps network nc last st) (fun st' => power_columns eps network r last st' (power_column nc last st st' q))
  end.
(** pn and pnsn of a programmed vector unit (initialised to zero, forward.py:63-64). *)
Definition unit_powers (eps : R) (network : mesh) (w : mat) (last : nat) : option ((nat -> R) * (nat -> R)) :=
  obind (columns network) (fun ncs => power_columns eps network ncs last (mkP w (fun _ => 0) (fun _ => 0)) (fun _ => 0, fun _ => 0)).

(** The set_descendants calls of _tree (vector.py:33, 42): (node_id, top_descendants, bot_descendants) in the order of the nodes. *)
Fixpoint desc_rec (fuel : nat) (indices : list nat) : list (nat * list nat * list nat) :=
  match fuel with
  | O => []
  | S fuel =>
      let n := (length indices + 1)%nat in
      let m := (n / 2)%nat in
      if Nat.eqb n 1 then []
      else
        let top := firstn (m - 1) indices in
        let bottom := skipn m indices in
        (nth (m - 1) indices 0%nat, top, bottom) :: desc_rec fuel top ++ desc_rec fuel bottom
  end.
Definition chain_desc (n : nat) : list (nat * list nat * list nat) := map (fun i => (i, seq 0 i, [])) (rev (seq 0 (n - 1))).
Definition descendants (n : nat) (balanced : bool) : list (nat * list nat * list nat) :=
  if balanced then desc_rec n (seq 0 (n - 1)) else chain_desc n.

Definition rmat := nat -> nat -> R.
(** m[r][(idxs,)] = f[(idxs,)] *)
Definition set_row (m : rmat) (r : nat) (idxs : list nat) (f : nat -> R) : rmat :=
  fun i j => if (Nat.eqb i r && existsb (Nat.eqb j) idxs)%bool then f j else m i j.
(** m[..., c] = m[c] *)
Definition row_to_col (m : rmat) (c : nat) : rmat := fun i j => if Nat.eqb j c then m c i else m i j.
(** m[..., c][(idxs,)] = f[(idxs,)] *)
Definition set_col (m : rmat) (c : nat) (idxs : list nat) (f : nat -> R) : rmat :=
  fun i j => if (Nat.eqb j c && existsb (Nat.eqb i) idxs)%bool then f i else m i j.
Definition rdiag (f : nat -> R) : rmat := fun i j => if Nat.eqb i j then f i else 0.

(** vector.py:250-259: one node. *)
Record blocks := mkB { b_tt : rmat; b_pp : rmat; b_tp : rmat; b_pt : rmat }.
Definition hess_step (pn pnsn : nat -> R) (b : blocks) (x : nat * list nat * list nat) : blocks :=
  let '(nid, tops, bots) := x in
  mkB (row_to_col (set_row (set_row (b_tt b) nid tops (fun j => pn j / 2)) nid bots (fun j => pn j / 2)) nid)
      (row_to_col (set_row (b_pp b) nid tops (fun j => 2 * pnsn j)) nid)
      (set_col (b_tp b) nid tops pn)
      (set_row (set_row (b_pt b) nid tops pnsn) nid bots pnsn).
(** vector.py:243-260 *)
Definition hess_blocks (pn pnsn : nat -> R) (ds : list (nat * list nat * list nat)) : blocks :=
  fold_left (hess_step pn pnsn) ds
    (mkB (rdiag pn) (fun i j => 2 * rdiag pnsn i j) (fun _ _ => 0) (rdiag pnsn)).
Definition hess_matrix (n : nat) (b : blocks) : rmat := fun i j =>
  if Nat.ltb i (n - 1) then
    if Nat.ltb j (n - 1) then b_tt b i j else b_tp b (j - (n - 1))%nat i + b_pt b (j - (n - 1))%nat i
  else
    if Nat.ltb j (n - 1) then b_tp b (i - (n - 1))%nat j + b_pt b (i - (n - 1))%nat j else b_pp b (i - (n - 1))%nat (j - (n - 1))%nat.

(** v / np.linalg.norm(v), vector.py:241 *)
Definition normalize (n : nat) (v : vec) : vec := fun i => (RtoC (/ sqrt (Rsum n (fun i => Cn2 (v i)))) * v i)%C.
(** balanced_tree(v) / unbalanced_tree(v), vector.py:188-223: the mesh programmed with v.conj(). *)
Definition conj_unit (eps : R) (v : vec) (n : nat) (balanced : bool) : option (mesh * params) :=
  obind (vector_unit eps (fun i _ => Cconj (v i)) n 0 n balanced TOP 0 0) (fun r => Some (fst r)).

(** vector.py:226-261 hessian_vector_unit *)
Definition hessian_vector_unit (eps : R) (v : vec) (n : nat) (balanced : bool) : option rmat :=
  let v := normalize n v in
  obind (conj_unit eps v n balanced) (fun r =>
  obind (unit_powers eps (fst r) (fun i _ => Cconj (v i)) 0) (fun q =>
  Some (hess_matrix n (hess_blocks (fst q) (snd q) (descendants n balanced))))).

(** vector.py:290-291 err *)
Definition fd_err (m : mesh) (v : vec) (n : nat) (p : params) : C :=
  match matrix_fn m false p (fun i => Cconj (v i)) with Some y => (RtoC 2 - RtoC 2 * y (n - 1)%nat)%C | None => C0 end.
(** params + s e_i on thetas and t e_j on phis, vector.py:295-306 *)
Definition plus_theta (p : params) (i : nat) (s : R) : params := mkParams (upd (thetas p) i (thetas p i + s)) (phis p) (gammas p).
Definition plus_phi (p : params) (i : nat) (s : R) : params := mkParams (thetas p) (upd (phis p) i (phis p i + s)) (gammas p).
Definition fd_quot (f : R -> R -> C) (e : R) : R := (re (f e e) + re (f (-e) (-e)) - re (f e (-e)) - re (f (-e) e)) / (4 * e ^ 2).
(** vector.py:264-313 hessian_fd; rows and columns of h are written once each (307-312). *)
Definition hessian_fd (eps : R) (v : vec) (n : nat) (balanced : bool) (error : R) : option rmat :=
  let v := normalize n v in
  obind (conj_unit eps v n balanced) (fun r =>
  let m := fst r in let p := snd r in
  let tt i j := fd_quot (fun s t => fd_err m v n (plus_theta (plus_theta p i s) j t)) error in
  let pp i j := fd_quot (fun s t => fd_err m v n (plus_phi (plus_phi p i s) j t)) error in
  let tp i j := fd_quot (fun s t => fd_err m v n (plus_phi (plus_theta p i s) j t)) error in
  Some (fun a b =>
    if Nat.ltb a (n - 1) then if Nat.ltb b (n - 1) then tt a b else tp (b - (n - 1))%nat a
    else if Nat.ltb b (n - 1) then tp (a - (n - 1))%nat b else pp (a - (n - 1))%nat (b - (n - 1))%nat)).
